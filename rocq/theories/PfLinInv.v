(** Linear inversion with a Moore-Penrose inverse. *)
From Coq Require Import Reals Lra FunctionalExtensionality.
From Verif Require Export LinInv PfCPovm.
From Verif Require Import CanonSpec PfRandSvd.
Open Scope nat_scope.

Section Pen.
Context {K : StarRing}.
Add Ring Kr : (k_ring K).
Notation mfun := (PfRandSvd.mfun (K:=K)).
(** The four equations of Penrose for an m x n matrix and its inverse *)
Definition penrose (m n : nat) (a b : mfun) : Prop :=
  eqm m n (mul n a (mul m b a)) a /\ eqm n m (mul m b (mul n a b)) b /\
  eqm m m (adj (mul n a b)) (mul n a b) /\ eqm n n (adj (mul m b a)) (mul m b a).
Definition pinv_sound (pinv : nd K -> res (nd K)) : Prop :=
  forall m n a, is_mat a m n -> match pinv a with Ok b => is_mat b n m /\ penrose m n (ent a) (ent b) | Err e => e = LinAlgError end.
Definition pinv_fails (pinv : nd K -> res (nd K)) : Prop := exists m n a, is_mat a m n /\ pinv a = Err LinAlgError.

Lemma mulA k l (f g h : mfun) : mul l f (mul k g h) = mul k (mul l f g) h.
Proof. extensionality i. extensionality j. symmetry. apply mul_assoc. Qed.
Lemma adjM k (f g : mfun) : adj (mul k f g) = mul k (adj g) (adj f).
Proof. extensionality i. extensionality j. apply adj_mul. Qed.
Lemma adjI (f : mfun) : adj (adj f) = f.
Proof. extensionality i. extensionality j. apply adj_adj. Qed.

(** The inverse is unique: both are [x a y].
    x = x (a x) = x (a x)^H = x (a y a x)^H = x (a x)^H (a y)^H = x a x a y = x a y *)
Lemma pen_left m n a x y : penrose m n a x -> penrose m n a y -> eqm n m x (mul m x (mul n a y)).
Proof.
  intros (X1 & X2 & X3 & X4) (Y1 & Y2 & Y3 & Y4).
  assert (A : eqm m m (mul n a x) (mul m (mul n a x) (mul n a y))).
  { apply eqm_trans with (adj (mul m (mul n a y) (mul n a x))).
    - apply eqm_trans with (adj (mul n a x)); [apply eqm_sym; exact X3|]. apply adj_ext. rewrite (mulA n m (mul n a y) a x), <- (mulA m n a y a).
      apply (mul_ext m n m); [apply eqm_sym; exact Y1|apply eqm_refl].
    - rewrite adjM. apply (mul_ext m m m); assumption. }
  apply eqm_trans with (mul m x (mul n a x)); [apply eqm_sym; exact X2|].
  apply eqm_trans with (mul m x (mul m (mul n a x) (mul n a y))); [apply (mul_ext n m m); [apply eqm_refl|exact A]|].
  rewrite mulA. apply (mul_ext n m m); [exact X2|apply eqm_refl].
Qed.
Lemma pen_adj m n a x : penrose m n a x -> penrose n m (adj a) (adj x).
Proof.
  intros (X1 & X2 & X3 & X4). split; [|split; [|split]].
  - apply adj_ext in X1. rewrite !adjM, <- mulA in X1. exact X1.
  - apply adj_ext in X2. rewrite !adjM, <- mulA in X2. exact X2.
  - rewrite <- adjM, adjI. apply eqm_sym. exact X4.
  - rewrite <- adjM, adjI. apply eqm_sym. exact X3.
Qed.
Lemma pen_right m n a x y : penrose m n a x -> penrose m n a y -> eqm n m y (mul m x (mul n a y)).
Proof.
  intros X Y. pose proof (pen_left n m (adj a) (adj y) (adj x) (pen_adj _ _ _ _ Y) (pen_adj _ _ _ _ X)) as H.
  apply adj_ext in H. rewrite !adjM, !adjI, <- mulA in H. exact H.
Qed.
Theorem penrose_unique m n a x y : penrose m n a x -> penrose m n a y -> eqm n m x y.
Proof. intros X Y. apply eqm_trans with (mul m x (mul n a y)); [apply pen_left; assumption|apply eqm_sym, pen_right; assumption]. Qed.

(** Vectors as functions *)
Definition mv (k : nat) (f : mfun) (v : nat -> K) : nat -> K := fun i => bigsum k (fun c => f i c * v c)%K.
Definition sq (n : nat) (v : nat -> K) : K := bigsum n (fun i => kconj (v i) * v i)%K.
Lemma mv_mul k l f g v : mv k f (mv l g v) = mv l (mul k f g) v.
Proof. extensionality i. symmetry. exact (mul_assoc l k f g (fun c (_ : nat) => v c) i 0). Qed.
Lemma mv_ext m k f g v : eqm m k f g -> forall i, i < m -> mv k f v i = mv k g v i.
Proof. intros H i Hi. apply bigsum_ext. intros c Hc. rewrite H by assumption. reflexivity. Qed.
Lemma mv_vec k (f : mfun) v w : (forall c, c < k -> v c = w c) -> mv k f v = mv k f w.
Proof. intros H. extensionality i. apply bigsum_ext. intros c Hc. rewrite H by assumption. reflexivity. Qed.
Lemma mv_sub k (f : mfun) v w i : mv k f (fun c => v c - w c)%K i = (mv k f v i - mv k f w i)%K.
Proof. unfold mv. rewrite <- bigsum_sub. apply bigsum_ext. intros; ring. Qed.
Lemma mv_adj m n (f : mfun) v w : bigsum m (fun i => kconj (mv n f v i) * w i)%K = bigsum n (fun j => kconj (v j) * mv m (adj f) w j)%K.
Proof.
  unfold mv. transitivity (bigsum m (fun i => bigsum n (fun j => kconj (v j) * (adj f j i * w i)))%K).
  - apply bigsum_ext. intros i _. rewrite bigsum_conj, <- bigsum_mul_r. apply bigsum_ext. intros j _. unfold adj. rewrite kconj_mul. ring.
  - rewrite bigsum_swap. apply bigsum_ext. intros j _. rewrite bigsum_mul_l. reflexivity.
Qed.
(** Pythagoras *)
Lemma sq_split n (v w : nat -> K) : bigsum n (fun i => kconj (v i) * w i)%K = k0 -> sq n (fun i => v i + w i)%K = (sq n v + sq n w)%K.
Proof.
  intros H. assert (H' : bigsum n (fun i => kconj (w i) * v i)%K = k0).
  { rewrite <- (kconj_0 (K:=K)), <- H, bigsum_conj. apply bigsum_ext. intros i _. rewrite kconj_mul, kconj_invol. ring. }
  unfold sq. transitivity (bigsum n (fun i => kconj (v i) * v i)%K + bigsum n (fun i => kconj (w i) * w i)%K + (bigsum n (fun i => kconj (v i) * w i)%K + bigsum n (fun i => kconj (w i) * v i)%K))%K.
  - rewrite <- !bigsum_add. apply bigsum_ext. intros i _. rewrite kconj_add. ring.
  - rewrite H, H'. ring.
Qed.
Lemma sq_ext n (v w : nat -> K) : (forall i, i < n -> v i = w i) -> sq n v = sq n w.
Proof. intros H. apply bigsum_ext. intros i Hi. rewrite H by exact Hi. reflexivity. Qed.

(** With the reconstruction [s = b (a v)]: same values, and [v] splits into orthogonal parts. *)
Lemma pen_values m n a b v : penrose m n a b -> forall k, k < m -> mv n a (mv m b (mv n a v)) k = mv n a v k.
Proof. intros (P1 & _) k Hk. rewrite (mv_mul m n), (mv_mul n n). apply (mv_ext m); assumption. Qed.

Lemma pen_norm m n a b v : penrose m n a b ->
  sq n v = (sq n (mv m b (mv n a v)) + sq n (fun i => v i - mv m b (mv n a v) i))%K.
Proof.
  intros (P1 & P2 & P3 & P4). set (s := mv m b (mv n a v)).
  rewrite <- sq_split; [apply sq_ext; intros i _; ring|].
  assert (Es : s = mv n (mul m b a) v) by (unfold s; apply mv_mul). rewrite Es, mv_adj. apply bigsum_zero. intros j Hj.
  rewrite (mv_ext n n _ (mul m b a)) by assumption. rewrite mv_sub, mv_mul.
  replace (mv n (mul n (mul m b a) (mul m b a)) v j) with (mv n (mul m b a) v j); [ring|].
  apply (mv_ext n); [|exact Hj]. rewrite (mulA m n), <- (mulA n m b a b). apply (mul_ext n m n); [apply eqm_sym; exact P2|apply eqm_refl].
Qed.

(** For any data [f] the reconstruction [s = b f] is a least-squares solution. *)
Lemma pen_least m n a b f w : penrose m n a b ->
  sq m (fun k => mv n a w k - f k)%K = (sq m (fun k => mv n a (mv m b f) k - f k)%K + sq m (mv n a (fun i => w i - mv m b f i)%K))%K.
Proof.
  intros (P1 & P2 & P3 & P4). rewrite <- sq_split; [apply sq_ext; intros i _; rewrite mv_sub; ring|].
  transitivity (kconj (bigsum m (fun k => kconj (mv n a (fun i => w i - mv m b f i)%K k) * (mv n a (mv m b f) k - f k))%K)).
  { rewrite bigsum_conj. apply bigsum_ext. intros k _. rewrite kconj_mul, kconj_invol. ring. }
  rewrite <- (kconj_0 (K:=K)). f_equal. rewrite mv_adj. apply bigsum_zero. intros j Hj. rewrite mv_sub, (mv_mul n m a b), (mv_mul m m).
  replace (mv m (mul m (adj a) (mul n a b)) f j) with (mv m (adj a) f j); [ring|].
  apply (mv_ext n); [|exact Hj]. apply eqm_trans with (mul m (adj a) (adj (mul n a b))); [|apply (mul_ext n m m); [apply eqm_refl|exact P3]].
  rewrite <- adjM. apply adj_ext. rewrite <- mulA. apply eqm_sym. exact P1.
Qed.

(** Transposition of a raveled d x d matrix *)
Section Swap.
Variables (d m : nat) (Hd : 0 < d) (a b : mfun).
Definition sw (q : nat) : nat := (q mod d) * d + q / d.
Lemma sw_lt q : q < d * d -> sw q < d * d.
Proof. intros H. unfold sw. pose proof (Nat.mod_upper_bound q d ltac:(lia)). assert (q / d < d) by (apply Nat.div_lt_upper_bound; lia). nia. Qed.
Lemma sw_ij i j : j < d -> sw (i * d + j) = j * d + i.
Proof. intros Hj. unfold sw. rewrite Nat.div_add_l, Nat.div_small, Nat.add_0_r by lia. rewrite (Nat.add_comm (i * d) j), Nat.mod_add, Nat.mod_small by lia. reflexivity. Qed.
Lemma bigsum_sw (f : nat -> K) : bigsum (d * d) (fun q => f (sw q)) = bigsum (d * d) f.
Proof.
  rewrite !bigsum_prod. rewrite bigsum_swap. apply bigsum_ext. intros i Hi. apply bigsum_ext. intros j Hj. rewrite sw_ij by lia. reflexivity.
Qed.
Hypothesis Ha : forall k q, k < m -> q < d * d -> kconj (a k (sw q)) = a k q.
Definition flip : mfun := fun q k => kconj (b (sw q) k).
Lemma flip_ba q q' : q' < d * d -> mul m flip a q q' = kconj (mul m b a (sw q) (sw q')).
Proof. intros H. unfold mul, flip. rewrite bigsum_conj. apply bigsum_ext. intros k Hk. rewrite kconj_mul, Ha by assumption. reflexivity. Qed.
Lemma flip_sum k (f : nat -> K) : k < m -> bigsum (d * d) (fun q => a k q * kconj (f (sw q)))%K = kconj (bigsum (d * d) (fun q => a k q * f q)%K).
Proof.
  intros Hk. rewrite bigsum_conj, <- (bigsum_sw (fun q => kconj (a k q * f q)%K)). apply bigsum_ext. intros q Hq. rewrite kconj_mul, Ha by assumption. reflexivity.
Qed.
Lemma flip_penrose : penrose m (d * d) a b -> penrose m (d * d) a flip.
Proof.
  intros (P1 & P2 & P3 & P4).
  assert (AB : forall k k', k < m -> mul (d * d) a flip k k' = kconj (mul (d * d) a b k k')) by (intros k k' Hk; exact (flip_sum k (fun q => b q k') Hk)).
  split; [|split; [|split]].
  - intros k q' Hk Hq. transitivity (bigsum (d * d) (fun q => a k q * kconj (mul m b a (sw q) (sw q')))%K); [apply bigsum_ext; intros q Hq1; rewrite flip_ba by exact Hq; reflexivity|].
    rewrite (flip_sum k (fun q => mul m b a q (sw q')) Hk). change (kconj (mul (d * d) a (mul m b a) k (sw q')) = a k q'). rewrite P1 by (auto using sw_lt). apply Ha; assumption.
  - intros q k Hq Hk. transitivity (kconj (mul m b (mul (d * d) a b) (sw q) k)).
    + unfold mul at 1. unfold mul at 2. rewrite bigsum_conj. apply bigsum_ext. intros c Hc. rewrite AB by exact Hc. rewrite kconj_mul. reflexivity.
    + rewrite P2 by (auto using sw_lt). reflexivity.
  - intros i j Hi Hj. unfold adj. rewrite !AB by assumption. f_equal. exact (P3 i j Hi Hj).
  - intros i j Hi Hj. unfold adj. rewrite !flip_ba by assumption. f_equal. exact (P4 (sw i) (sw j) (sw_lt i Hi) (sw_lt j Hj)).
Qed.
(** The pseudo-inverse of a map with real values on Hermitian matrices gives Hermitian matrices. *)
Lemma pen_hermitian f : penrose m (d * d) a b -> (forall k, k < m -> kconj (f k) = f k) -> forall q, q < d * d -> kconj (mv m b f (sw q)) = mv m b f q.
Proof.
  intros P Hf q Hq. transitivity (mv m flip f q).
  - unfold mv. rewrite bigsum_conj. apply bigsum_ext. intros k Hk. rewrite kconj_mul, Hf by exact Hk. reflexivity.
  - apply (mv_ext (d * d)); [|exact Hq]. apply (penrose_unique m (d * d) a); [apply flip_penrose; exact P|exact P].
Qed.
End Swap.
End Pen.

(** Reconstruction from numbers [f]: [np.dot(povm.linear_inversion_map, f).reshape(d, d)] *)
Definition recon (d n : nat) (b : nd CS) (f : nat -> CS) : nat -> nat -> CS := fun i j => bigsum n (fun k => kmul (get b [i * d + j; k]) (f k)).
Definition hs2 (d : nat) (m : nat -> nat -> CS) : CS := bigsum d (fun i => bigsum d (fun j => kconj (m i j) * m i j)%K).
Definition separates (d n : nat) (p : povm CS) : Prop := forall rho sigma, (forall k, k < n -> born d p rho k = born d p sigma k) -> forall a b, a < d -> b < d -> rho a b = sigma a b.

Section Inv.
Variables (pinv : nd CS -> res (nd CS)) (Hp : pinv_sound pinv).
Add Ring Cr : (k_ring CS).

Lemma rav_ij d (rho : nat -> nat -> CS) i j : j < d -> raveled d rho (i * d + j) = rho i j.
Proof. intros H. unfold raveled. rewrite Nat.div_add_l, Nat.div_small, Nat.add_0_r by lia. rewrite (Nat.add_comm (_ * d)), Nat.mod_add, Nat.mod_small by lia. reflexivity. Qed.
Lemma rav_q d (g : nat -> CS) q : q < d * d -> raveled d (fun i j => g (i * d + j)) q = g q.
Proof. intros H. unfold raveled. f_equal. rewrite (Nat.div_mod q d) at 3 by lia. lia. Qed.
Lemma hs2_sq d rho : hs2 d rho = sq (K:=CS) (d * d) (raveled d rho).
Proof. unfold hs2, sq. rewrite bigsum_prod. apply bigsum_ext. intros i Hi. apply bigsum_ext. intros j Hj. rewrite rav_ij by exact Hj. reflexivity. Qed.

Lemma pmap_mat p n d : ndwf (elements p) -> shp (elements p) = [n; d; d] -> 0 < n -> 0 < d ->
  exists m, povm_pmap p = Ok m /\ is_mat m n (d * d) /\ (forall k i j, k < n -> i < d -> j < d -> get m [k; i * d + j] = povm_elem p k j i) /\
    forall rho k, k < n -> mv (d * d) (ent m) (raveled d rho) k = born d p rho k.
Proof.
  intros W S Hn Hd. set (fs := map (fun k => povm_elem p k) (seq 0 n)).
  assert (Lf : length fs = n) by (unfold fs; rewrite map_length, seq_length; reflexivity).
  assert (Nf : forall k, k < n -> nth k fs zmat = povm_elem p k) by (intros k Hk; unfold fs; rewrite (nth_indep _ _ (povm_elem p 0)) by (rewrite map_length, seq_length; exact Hk); rewrite (map_nth (fun k => povm_elem p k)), seq_nth by exact Hk; reflexivity).
  assert (H : is_povm p d fs) by (split; [exact W|]; rewrite Lf; split; [exact S|]; intros; rewrite Nf by assumption; reflexivity).
  destruct (povm_pmap_ok p d fs H) as (m & E & Wm & Sm & G); [lia|]. rewrite Lf in Sm, G. exists m. split; [exact E|]. split; [split; [exact Sm|]; split; [exact Wm|]; split; nia|].
  split; [intros k i j Hk Hi Hj; rewrite G, Nf by assumption; reflexivity|].
  destruct (pmap_born p n d W S Hn) as (m' & E' & _ & B). assert (m' = m) by congruence. subst m'. intros rho k Hk. exact (B rho k Hk).
Qed.

Theorem inversion_spec p n d : ndwf (elements p) -> shp (elements p) = [n; d; d] -> 0 < n -> 0 < d ->
  outc (pinv_fails pinv) (linear_inversion_map pinv p) (fun b => is_mat b (d * d) n /\
    (forall rho k, k < n -> born d p (recon d n b (born d p rho)) k = born d p rho k) /\
    (forall rho, hs2 d rho = (hs2 d (recon d n b (born d p rho)) + hs2 d (fun i j => rho i j - recon d n b (born d p rho) i j))%K) /\
    (forall f rho, sq (K:=CS) n (fun k => born d p rho k - f k)%K = (sq (K:=CS) n (fun k => born d p (recon d n b f) k - f k) + sq (K:=CS) n (born d p (fun i j => rho i j - recon d n b f i j)))%K) /\
    (separates d n p -> forall rho i j, i < d -> j < d -> recon d n b (born d p rho) i j = rho i j) /\
    ((forall k i j, k < n -> i < d -> j < d -> kconj (povm_elem p k j i) = povm_elem p k i j) -> forall f, (forall k, k < n -> kconj (f k) = f k) ->
       forall i j, i < d -> j < d -> kconj (recon d n b f j i) = recon d n b f i j)).
Proof.
  intros W S Hn Hd. destruct (pmap_mat p n d W S Hn Hd) as (m & E & Hm & G & B). unfold linear_inversion_map. rewrite E. cbn [bind].
  specialize (Hp n (d * d) m Hm). destruct (pinv m) as [b|e] eqn:Eb; [|right; split; [congruence|exists n, (d * d), m; split; [exact Hm|congruence]]].
  destruct Hp as [Hb P]. left. exists b. split; [reflexivity|].
  assert (R : forall f q, q < d * d -> raveled d (recon d n b f) q = mv n (ent b) f q) by (intros f q Hq; exact (rav_q d (mv n (ent b) f) q Hq)).
  assert (BV : forall v w : nat -> CS, (forall k, k < n -> v k = w k) -> recon d n b v = recon d n b w).
  { intros v w Hv. extensionality i. extensionality j. apply bigsum_ext. intros k Hk. rewrite Hv by exact Hk. reflexivity. }
  assert (V : forall f k, k < n -> born d p (recon d n b f) k = mv (d * d) (ent m) (mv n (ent b) f) k).
  { intros f k Hk. rewrite <- B by exact Hk. rewrite (mv_vec (d * d) (ent m) _ (mv n (ent b) f)) by (intros; apply R; assumption). reflexivity. }
  assert (Bm : forall rho, recon d n b (born d p rho) = recon d n b (mv (d * d) (ent m) (raveled d rho))) by (intros rho; apply BV; intros; symmetry; apply B; assumption).
  split; [exact Hb|]. 
  assert (V1 : forall rho k, k < n -> born d p (recon d n b (born d p rho)) k = born d p rho k).
  { intros rho k Hk. rewrite Bm, V by exact Hk. rewrite (pen_values n (d * d) (ent m) (ent b)) by assumption. apply B; exact Hk. }
  split; [exact V1|]. split; [|split; [|split]].
  - intros rho. rewrite !hs2_sq, Bm. rewrite (pen_norm n (d * d) (ent m) (ent b) (raveled d rho) P). f_equal; apply sq_ext; intros q Hq; [symmetry; apply R; exact Hq|].
    rewrite <- R by exact Hq. reflexivity.
  - intros f rho. rewrite (sq_ext n _ (fun k => mv (d * d) (ent m) (raveled d rho) k - f k)%K) by (intros; rewrite B by assumption; reflexivity).
    rewrite (pen_least n (d * d) (ent m) (ent b) f (raveled d rho) P). f_equal; apply sq_ext; intros k Hk; [rewrite V by exact Hk; reflexivity|].
    rewrite <- B by exact Hk. rewrite (mv_vec (d * d) (ent m) _ (raveled d (fun i j => rho i j - recon d n b f i j)%K)); [reflexivity|]. intros q Hq. rewrite <- R by exact Hq. reflexivity.
  - intros Hs rho. apply Hs. intros k Hk. apply V1; exact Hk.
  - intros Hh f Hf i j Hi Hj. 
    pose proof (pen_hermitian d n Hd (ent m) (ent b)) as PH. specialize (fun h => PH h f P Hf (i * d + j)). rewrite sw_ij in PH by assumption. apply PH; [|nia].
    intros k q Hk Hq. assert (H1 : q / d < d) by (apply Nat.div_lt_upper_bound; lia). pose proof (Nat.mod_upper_bound q d ltac:(lia)) as H2.
    unfold ent, sw. rewrite G by assumption. replace q with (q / d * d + q mod d) at 3 by (rewrite Nat.mul_comm; symmetry; apply Nat.div_mod; lia). rewrite G by assumption. apply Hh; assumption.
Qed.

(** The map does not depend on the pseudo-inverse routine. *)
Theorem inversion_unique pinv' p n d b b' : pinv_sound pinv' -> ndwf (elements p) -> shp (elements p) = [n; d; d] -> 0 < n -> 0 < d ->
  linear_inversion_map pinv p = Ok b -> linear_inversion_map pinv' p = Ok b' -> b = b'.
Proof.
  intros Hp' W S Hn Hd. destruct (pmap_mat p n d W S Hn Hd) as (m & E & Hm & _). unfold linear_inversion_map. rewrite E. cbn [bind]. intros E1 E2.
  specialize (Hp n (d * d) m Hm). specialize (Hp' n (d * d) m Hm). rewrite E1 in Hp. rewrite E2 in Hp'. destruct Hp as [(S1 & W1 & _) P1], Hp' as [(S2 & W2 & _) P2].
  pose proof (penrose_unique n (d * d) (ent m) (ent b) (ent b') P1 P2) as U. apply nd_eq; [exact W1|exact W2|congruence|].
  intros idx Hi. rewrite S1 in Hi. inversion Hi as [|i ? is ? Hi1 Hi2]; subst. inversion Hi2 as [|j ? js ? Hj1 Hj2]; subst. inversion Hj2; subst. exact (U i j Hi1 Hj1).
Qed.
End Inv.
