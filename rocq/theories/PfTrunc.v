(** SVD compression with relerr as a sequence of truncated Schmidt decompositions
    (mparray.py 901-962). *)
From Verif Require Export PfBounds.

Section Trunc.
Context {K : StarRing}.
Add Ring Kr : (k_ring K).

(** Across the cut after [j] sites [ts] is [sum_{c < length s} U_c s_c V_c] with
    orthonormal [U] and [V], and [us] consists of the first [k] terms. *)
Definition truncation (l r : nat) (ts us : list (nd K)) (j : nat) (s : list K) (k : nat) : Prop :=
  exists (U : list (list nat) -> nat -> nat -> K) (V : nat -> list (list nat) -> nat -> K),
  (forall is1 is2 a b, Forall2 inr is1 (map pdims (firstn j ts)) -> Forall2 inr is2 (map pdims (skipn j ts)) -> a < l -> b < r ->
     amp ts (is1 ++ is2) a b = bigsum (length s) (fun c => U is1 a c * nth c s k0 * V c is2 b)%K /\
     amp us (is1 ++ is2) a b = bigsum k (fun c => U is1 a c * nth c s k0 * V c is2 b)%K) /\
  (forall c e, c < length s -> e < length s ->
     bigsum l (fun a => msums (map pdims (firstn j ts)) (fun is => kconj (U is a c) * U is a e)%K) = delta c e) /\
  (forall c e, c < length s -> e < length s ->
     bigsum r (fun b => msums (map pdims (skipn j ts)) (fun is => V c is b * kconj (V e is b))%K) = delta c e) /\
  (forall c, c < length s -> kconj (nth c s k0) = nth c s k0).

Lemma amp_left_split x1 (t u : nd K) s k V l : bonds x1 l (ldim t) -> lt_ok t -> lt_ok u -> ldim u = ldim t -> pdims u = pdims t -> rdim u = k -> length s = k ->
  rexact t k s u V -> forall is1 a d, Forall2 inr is1 (map pdims (x1 ++ [t])) -> a < l -> d < rdim t ->
  amp (x1 ++ [t]) is1 a d = bigsum k (fun c => amp (x1 ++ [u]) is1 a c * (nth c s k0 * V c d))%K.
Proof.
  intros B1 Ht R1 R2 R3 R4 R6 Ex is1 a d I1 Ha Hd. rewrite map_app in I1. apply Forall2_app_inv_r in I1. destruct I1 as [i1 [i2 [J1 [J2 ->]]]].
  apply Forall2_one in J2. destruct J2 as [i [-> Ji]].
  assert (L1' : length i1 = length x1) by (rewrite (Forall2_len _ _ _ _ _ J1), map_length; reflexivity).
  rewrite (amp_app x1 [t] i1 [i] a d l (ldim t)) by assumption.
  transitivity (bigsum (ldim t) (fun a0 => bigsum (rdim u) (fun c => amp x1 i1 a a0 * ent u a0 i c * (nth c s k0 * V c d)))%K).
  - apply bigsum_ext. intros a0 Ha0. cbn [amp]. rewrite (bigsum_single _ d) by (auto; intros; rewrite delta_neq by auto; ring).
    rewrite delta_eq, (Ex a0 i d Ha0 Ji Hd). transitivity (amp x1 i1 a a0 * bigsum k (fun c => ent u a0 i c * nth c s k0 * V c d))%K; [ring|].
    rewrite R4, <- bigsum_mul_l. apply bigsum_ext. intros c Hc. ring.
  - rewrite bigsum_swap, R4. apply bigsum_ext. intros c Hc. rewrite bigsum_mul_r. f_equal.
    rewrite (amp_app x1 [u] i1 [i] a c l (ldim u)) by (try assumption; rewrite R2; assumption). rewrite R2. apply bigsum_ext. intros a0 Ha0. cbn [amp].
    rewrite (bigsum_single _ c) by (try (rewrite R4; exact Hc); intros; rewrite delta_neq by auto; ring). rewrite delta_eq. ring.
Qed.

(** Two last sites that agree on a column. *)
Lemma amp_left_col x1 (u v : nd K) l D c : bonds x1 l D -> ldim u = D -> ldim v = D -> c < rdim u -> c < rdim v ->
  forall i1 i a, length i1 = length x1 -> a < l -> (forall a0, a0 < D -> ent u a0 i c = ent v a0 i c) ->
  amp (x1 ++ [u]) (i1 ++ [i]) a c = amp (x1 ++ [v]) (i1 ++ [i]) a c.
Proof.
  intros B E1 E2 Hu Hv i1 i a L Ha HE. rewrite (amp_app x1 [u] i1 [i] a c l D), (amp_app x1 [v] i1 [i] a c l D) by assumption.
  apply bigsum_ext. intros a0 Ha0. cbn [amp]. f_equal.
  rewrite (bigsum_single _ c) by (auto; intros; rewrite delta_neq by auto; ring).
  rewrite (bigsum_single (rdim v) c) by (auto; intros; rewrite delta_neq by auto; ring). rewrite HE by exact Ha0. reflexivity.
Qed.

Lemma amp_absorb (t w w' : nd K) x2 k M : lt_ok w -> absorbs t w w' k M -> forall is2 c b, Forall2 inr is2 (map pdims (w :: x2)) -> c < k ->
  amp (w' :: x2) is2 c b = bigsum (rdim t) (fun d => M c d * amp (w :: x2) is2 d b)%K.
Proof.
  intros Hw [A1 [A2 [A3 [A4 A5]]]] is2 c b Hi Hc. cbn [map] in Hi. inversion Hi as [|j ? is' ? Hj Hi']; subst. cbn [amp]. rewrite A4.
  transitivity (bigsum (rdim w) (fun b0 => bigsum (rdim t) (fun d => M c d * ent w d j b0) * amp x2 is' b0 b))%K.
  - apply bigsum_ext. intros e He. rewrite (A5 c j e Hc Hj He). reflexivity.
  - transitivity (bigsum (rdim w) (fun b0 => bigsum (rdim t) (fun d => M c d * ent w d j b0 * amp x2 is' b0 b)))%K.
    + apply bigsum_ext. intros e He. rewrite bigsum_mul_r. reflexivity.
    + rewrite bigsum_swap. apply bigsum_ext. intros d Hd. rewrite <- bigsum_mul_l. apply bigsum_ext. intros e He. ring.
Qed.

Lemma truncation_r x1 t w x2 u uf w' l r k s V : chain_ok (x1 ++ t :: w :: x2) l r -> Forall left_iso x1 -> Forall right_iso (w :: x2) ->
  k <= length s -> rsplit t (length s) s uf V -> rexact t (length s) s uf V ->
  lt_ok u -> ldim u = ldim t -> pdims u = pdims t -> rdim u = k ->
  absorbs t w w' k (fun c d => nth c s k0 * V c d)%K ->
  (forall a i c, a < ldim t -> inr i (pdims t) -> c < k -> ent u a i c = ent uf a i c) ->
  truncation l r (x1 ++ t :: w :: x2) (x1 ++ u :: w' :: x2) (S (length x1)) s k.
Proof.
  intros [Hne [B P]] HL HR Hk RS Ex U1 U2 U3 U4 AB HE. pose proof (bonds_two _ _ _ _ _ _ B) as [B1 [Ht [Hu [El B2]]]].
  pose proof RS as [R1 [R2 [R3 [R4 [R5 [R6 [R7 [R8 [R9 [R10 [R11 R12]]]]]]]]]]].
  assert (Bw : bonds (w :: x2) (rdim t) r) by (cbn [bonds]; auto).
  assert (Buf : bonds (x1 ++ [uf]) l (length s)) by (apply bonds_app; exists (ldim t); split; [exact B1|cbn; auto]).
  assert (Bu : bonds (x1 ++ [u]) l k) by (apply bonds_app; exists (ldim t); split; [exact B1|cbn; auto]).
  assert (Bt : bonds (x1 ++ [t]) l (rdim t)) by (apply bonds_app; exists (ldim t); split; [exact B1|cbn; auto]).
  replace (x1 ++ t :: w :: x2) with ((x1 ++ [t]) ++ w :: x2) by (rewrite <- app_assoc; reflexivity).
  replace (x1 ++ u :: w' :: x2) with ((x1 ++ [u]) ++ w' :: x2) by (rewrite <- app_assoc; reflexivity).
  assert (Lx : length (x1 ++ [t]) = S (length x1)) by (rewrite app_length; cbn; lia).
  exists (fun is a c => amp (x1 ++ [uf]) is a c), (fun c is b => bigsum (rdim t) (fun d => V c d * amp (w :: x2) is d b)%K).
  rewrite firstn_app, skipn_app, Lx, Nat.sub_diag, firstn_O, skipn_O, app_nil_r, firstn_all2, skipn_all2 by lia. cbn [app].
  assert (Ep : map pdims (x1 ++ [uf]) = map pdims (x1 ++ [t])) by (rewrite !map_app; cbn [map]; rewrite R3; reflexivity).
  split; [|split; [|split; [|exact R11]]].
  - intros is1 is2 a b I1 I2 Ha Hb.
    assert (L1 : length is1 = length (x1 ++ [t])) by (rewrite (Forall2_len _ _ _ _ _ I1), map_length; reflexivity).
    assert (L2 : length is1 = length (x1 ++ [u])) by (rewrite L1, !app_length; reflexivity).
    split.
    + rewrite (amp_app (x1 ++ [t]) (w :: x2) is1 is2 a b l (rdim t)) by assumption.
      transitivity (bigsum (rdim t) (fun d => bigsum (length s) (fun c => amp (x1 ++ [uf]) is1 a c * (nth c s k0 * V c d) * amp (w :: x2) is2 d b))%K).
      * apply bigsum_ext. intros d Hd. rewrite (amp_left_split x1 t uf s (length s) V l) by assumption. rewrite bigsum_mul_r. reflexivity.
      * rewrite bigsum_swap. apply bigsum_ext. intros c Hc. rewrite <- bigsum_mul_l. apply bigsum_ext. intros d Hd. ring.
    + rewrite (amp_app (x1 ++ [u]) (w' :: x2) is1 is2 a b l k) by assumption. apply bigsum_ext. intros c Hc.
      rewrite (amp_absorb t w w' x2 k _ Hu AB is2 c b I2 Hc).
      transitivity (amp (x1 ++ [u]) is1 a c * (nth c s k0 * bigsum (rdim t) (fun d => V c d * amp (w :: x2) is2 d b)))%K.
      { f_equal. rewrite <- bigsum_mul_l. apply bigsum_ext. intros d Hd. ring. }
      rewrite map_app in I1. apply Forall2_app_inv_r in I1. destruct I1 as [i1 [i2 [J1 [J2 ->]]]].
      apply Forall2_one in J2. destruct J2 as [i [-> Ji]].
      rewrite (amp_left_col x1 u uf l (ldim t) c B1 U2 R2 ltac:(lia) ltac:(lia) i1 i a); [ring| |exact Ha|].
      * rewrite (Forall2_len _ _ _ _ _ J1), map_length; reflexivity.
      * intros a0 Ha0. apply HE; assumption.
  - intros c e Hc He. rewrite <- Ep.
    assert (HLu : Forall left_iso (x1 ++ [uf])) by (apply Forall_app; auto).
    pose proof (lgram_iso (x1 ++ [uf]) [] [] l (length s) c e HLu Buf) as G. rewrite app_nil_r in G. unfold gram at 1 in G. rewrite G.
    rewrite (bigsum_single _ c) by (auto; intros d Hd Hn; rewrite gram_nil, delta_neq by auto; ring). rewrite gram_nil, delta_eq. ring.
  - intros c e Hc He.
    transitivity (bigsum r (fun b => bigsum (rdim t) (fun d => bigsum (rdim t) (fun f => V c d * kconj (V e f) * gram (w :: x2) (w :: x2) f d b b)))%K).
    + apply bigsum_ext. intros b Hb.
      transitivity (msums (map pdims (w :: x2)) (fun is => bigsum (rdim t) (fun d => bigsum (rdim t) (fun f =>
         V c d * kconj (V e f) * (kconj (amp (w :: x2) is f b) * amp (w :: x2) is d b))))%K).
      * apply msums_ext. intros is Hi. rewrite bigsum_conj, bigsum_mul. apply bigsum_ext. intros d Hd. apply bigsum_ext. intros f Hf.
        rewrite (kconj_mul K). ring.
      * rewrite <- bigsum_msums_swap. apply bigsum_ext. intros d Hd. rewrite <- bigsum_msums_swap. apply bigsum_ext. intros f Hf. apply msums_mul_l.
    + rewrite bigsum_swap. rewrite <- (R10 c e Hc He). apply bigsum_ext. intros d Hd. rewrite bigsum_swap.
      rewrite (bigsum_single _ d); [|exact Hd|].
      * rewrite bigsum_mul_l, (rgram_iso (w :: x2) r (rdim t) d d HR Bw Hd Hd), delta_eq. ring.
      * intros f Hf Hn. rewrite bigsum_mul_l, (rgram_iso (w :: x2) r (rdim t) f d HR Bw Hf Hd), delta_neq by auto. ring.
Qed.

(** The mirror image. *)
Lemma amp_right_split (t v : nd K) x2 s k U : lt_ok t -> lt_ok v -> ldim v = k -> pdims v = pdims t -> rdim v = rdim t ->
  lexact t k s v U -> forall is2 d b, Forall2 inr is2 (map pdims (t :: x2)) -> d < ldim t ->
  amp (t :: x2) is2 d b = bigsum k (fun c => U d c * nth c s k0 * amp (v :: x2) is2 c b)%K.
Proof.
  intros Ht Hv E1 E2 E3 Ex is2 d b Hi Hd. cbn [map] in Hi. inversion Hi as [|j ? is' ? Hj Hi']; subst. cbn [amp]. rewrite E3.
  transitivity (bigsum (rdim t) (fun b0 => bigsum (ldim v) (fun c => U d c * nth c s k0 * ent v c j b0 * amp x2 is' b0 b)))%K.
  - apply bigsum_ext. intros e He. rewrite (Ex d j e Hd Hj He), bigsum_mul_r. reflexivity.
  - rewrite bigsum_swap. apply bigsum_ext. intros c Hc. rewrite <- bigsum_mul_l. apply bigsum_ext. intros e He. ring.
Qed.

Lemma amp_right_col (u v : nd K) x2 c : rdim u = rdim v -> forall i is b,
  (forall b0, b0 < rdim v -> ent u c i b0 = ent v c i b0) -> amp (u :: x2) (i :: is) c b = amp (v :: x2) (i :: is) c b.
Proof. intros E i is b HE. cbn [amp]. rewrite E. apply bigsum_ext. intros e He. rewrite HE by exact He. reflexivity. Qed.

Lemma amp_labsorb x1 (t w w' : nd K) l k M : bonds x1 l (ldim w) -> lt_ok w -> labsorbs t w w' k M ->
  forall is1 a c, Forall2 inr is1 (map pdims (x1 ++ [w])) -> a < l -> c < k ->
  amp (x1 ++ [w']) is1 a c = bigsum (rdim w) (fun d => amp (x1 ++ [w]) is1 a d * M d c)%K.
Proof.
  intros B1 Hw [A1 [A2 [A3 [A4 A5]]]] is1 a c I1 Ha Hc. rewrite map_app in I1. apply Forall2_app_inv_r in I1. destruct I1 as [i1 [i2 [J1 [J2 ->]]]].
  apply Forall2_one in J2. destruct J2 as [j [-> Jj]].
  assert (L1 : length i1 = length x1) by (rewrite (Forall2_len _ _ _ _ _ J1), map_length; reflexivity).
  rewrite (amp_app x1 [w'] i1 [j] a c l (ldim w)) by assumption.
  transitivity (bigsum (ldim w) (fun a0 => bigsum (rdim w) (fun d => amp x1 i1 a a0 * (ent w a0 j d * M d c))))%K.
  - apply bigsum_ext. intros a0 Ha0. cbn [amp]. rewrite A4. rewrite (bigsum_single _ c) by (auto; intros; rewrite delta_neq by auto; ring).
    rewrite delta_eq, (A5 a0 j c Ha0 Jj Hc), bigsum_mul_l. ring.
  - rewrite bigsum_swap. apply bigsum_ext. intros d Hd. rewrite (amp_app x1 [w] i1 [j] a d l (ldim w)) by assumption.
    rewrite <- bigsum_mul_r. apply bigsum_ext. intros a0 Ha0. cbn [amp]. rewrite (bigsum_single _ d) by (auto; intros; rewrite delta_neq by auto; ring).
    rewrite delta_eq. ring.
Qed.

Lemma truncation_l x1 w t x2 v vf w' l r k s U : chain_ok (x1 ++ w :: t :: x2) l r -> Forall left_iso (x1 ++ [w]) -> Forall right_iso x2 ->
  k <= length s -> lsplit t (length s) s vf U -> lexact t (length s) s vf U ->
  lt_ok v -> ldim v = k -> pdims v = pdims t -> rdim v = rdim t ->
  labsorbs t w w' k (fun d c => U d c * nth c s k0)%K ->
  (forall c i b, c < k -> inr i (pdims t) -> b < rdim t -> ent v c i b = ent vf c i b) ->
  truncation l r (x1 ++ w :: t :: x2) (x1 ++ w' :: v :: x2) (S (length x1)) s k.
Proof.
  intros [Hne [B P]] HL HR Hk RS Ex V1 V2 V3 V4 AB HE. pose proof (bonds_two _ _ _ _ _ _ B) as [B1 [Hw [Ht [El B2]]]].
  pose proof RS as [R1 [R2 [R3 [R4 [R5 [R6 [R7 [R8 [R9 [R10 [R11 R12]]]]]]]]]]]. pose proof AB as [A1 [A2 [A3 [A4 A5]]]].
  assert (Bv : bonds (vf :: x2) (length s) r) by (cbn [bonds]; rewrite R4; auto).
  assert (Bw : bonds (x1 ++ [w]) l (rdim w)) by (apply bonds_app; exists (ldim w); split; [exact B1|cbn; auto]).
  assert (Bw' : bonds (x1 ++ [w']) l k) by (apply bonds_app; exists (ldim w); split; [exact B1|cbn; auto]).
  replace (x1 ++ w :: t :: x2) with ((x1 ++ [w]) ++ t :: x2) by (rewrite <- app_assoc; reflexivity).
  replace (x1 ++ w' :: v :: x2) with ((x1 ++ [w']) ++ v :: x2) by (rewrite <- app_assoc; reflexivity).
  assert (Lx : length (x1 ++ [w]) = S (length x1)) by (rewrite app_length; cbn; lia).
  exists (fun is a c => bigsum (rdim w) (fun d => amp (x1 ++ [w]) is a d * U d c)%K), (fun c is b => amp (vf :: x2) is c b).
  rewrite firstn_app, skipn_app, Lx, Nat.sub_diag, firstn_O, skipn_O, app_nil_r, firstn_all2, skipn_all2 by lia. cbn [app].
  assert (Ep : map pdims (vf :: x2) = map pdims (t :: x2)) by (cbn [map]; rewrite R3; reflexivity).
  split; [|split; [|split; [|exact R11]]].
  - intros is1 is2 a b I1 I2 Ha Hb.
    assert (L1 : length is1 = length (x1 ++ [w])) by (rewrite (Forall2_len _ _ _ _ _ I1), map_length; reflexivity).
    assert (L2 : length is1 = length (x1 ++ [w'])) by (rewrite L1, !app_length; reflexivity).
    split.
    + rewrite (amp_app (x1 ++ [w]) (t :: x2) is1 is2 a b l (rdim w)) by assumption.
      transitivity (bigsum (rdim w) (fun d => bigsum (length s) (fun c => amp (x1 ++ [w]) is1 a d * (U d c * nth c s k0) * amp (vf :: x2) is2 c b))%K).
      * apply bigsum_ext. intros d Hd. rewrite (amp_right_split t vf x2 s (length s) U) by (try assumption; lia). rewrite <- bigsum_mul_l. apply bigsum_ext. intros c Hc. ring.
      * rewrite bigsum_swap. apply bigsum_ext. intros c Hc. rewrite <- !bigsum_mul_r. apply bigsum_ext. intros d Hd. ring.
    + rewrite (amp_app (x1 ++ [w']) (v :: x2) is1 is2 a b l k) by assumption. apply bigsum_ext. intros c Hc.
      rewrite (amp_labsorb x1 t w w' l k _ B1 Hw AB is1 a c I1 Ha Hc).
      transitivity (bigsum (rdim w) (fun d => amp (x1 ++ [w]) is1 a d * U d c) * nth c s k0 * amp (v :: x2) is2 c b)%K.
      { f_equal. rewrite <- bigsum_mul_r. apply bigsum_ext. intros d Hd. ring. }
      f_equal. cbn [map] in I2. inversion I2 as [|j ? is' ? Hj Hi']; subst. apply amp_right_col; [lia|]. intros b0 Hb0. apply HE; [exact Hc|exact Hj|lia].
  - intros c e Hc He.
    transitivity (bigsum l (fun a => bigsum (rdim w) (fun d => bigsum (rdim w) (fun f => kconj (U d c) * U f e * msums (map pdims (x1 ++ [w])) (fun is => kconj (amp (x1 ++ [w]) is a d) * amp (x1 ++ [w]) is a f)))))%K.
    + apply bigsum_ext. intros a Ha.
      transitivity (msums (map pdims (x1 ++ [w])) (fun is => bigsum (rdim w) (fun d => bigsum (rdim w) (fun f =>
         kconj (U d c) * U f e * (kconj (amp (x1 ++ [w]) is a d) * amp (x1 ++ [w]) is a f)))))%K.
      * apply msums_ext. intros is Hi. rewrite bigsum_conj, bigsum_mul. apply bigsum_ext. intros d Hd. apply bigsum_ext. intros f Hf.
        rewrite (kconj_mul K). ring.
      * rewrite <- bigsum_msums_swap. apply bigsum_ext. intros d Hd. rewrite <- bigsum_msums_swap. apply bigsum_ext. intros f Hf. apply msums_mul_l.
    + rewrite bigsum_swap. rewrite <- (R10 c e Hc He), El. apply bigsum_ext. intros d Hd. rewrite bigsum_swap.
      assert (G : forall f, f < rdim w -> bigsum l (fun a => msums (map pdims (x1 ++ [w])) (fun is => kconj (amp (x1 ++ [w]) is a d) * amp (x1 ++ [w]) is a f)%K) = delta d f).
      { intros f Hf. pose proof (lgram_iso (x1 ++ [w]) [] [] l (rdim w) d f HL Bw) as G. rewrite app_nil_r in G. unfold gram at 1 in G. rewrite G.
        rewrite (bigsum_single _ d) by (auto; intros g Hg Hn; rewrite !gram_nil, (delta_neq g d) by auto; ring). rewrite !gram_nil, delta_eq. ring. }
      rewrite (bigsum_single _ d); [|exact Hd|].
      * rewrite bigsum_mul_l, G, delta_eq by exact Hd. ring.
      * intros f Hf Hn. rewrite bigsum_mul_l, G, delta_neq by auto. ring.
  - intros c e Hc He. rewrite <- Ep.
    assert (HRv : Forall right_iso (vf :: x2)) by (constructor; assumption).
    pose proof (rgram_iso (vf :: x2) r (length s) e c HRv Bv He Hc) as G. rewrite delta_sym in G. rewrite <- G.
    apply bigsum_ext. intros b Hb. unfold gram. apply msums_ext. intros is Hi. ring.
Qed.

(** ** The steps *)
Section WithSVD.
Variable svd : nd K -> res (nd K * list K * nd K).
Variable svdfunc : nd K -> nat -> res (nd K * list K * nd K).
Hypothesis Hsvd : svd_sound svd.
Hypothesis Hts : tsvd_sound svdfunc.
(** A property of the list of singular values. *)
Variable P : list K -> Prop.
Hypothesis HP : forall m n a u s v, is_mat a m n -> svd a = Ok (u, s, v) -> P s.
Variables (rank : nat) (rk : list K -> nat).
Hypothesis Hrank : 0 < rank.
Hypothesis Hrk : forall s, 0 < rk s.

(** What is yielded: the singular values and the number that is kept. *)
Definition kept_ok (y : list K * nat) : Prop :=
  P (fst y) /\ fst y <> [] /\ snd y = Nat.min (Nat.min (length (fst y)) rank) (rk (fst y)).

Lemma bind_eq (A B : Type) (x : res A) (f : A -> res B) z : bind x f = Ok z -> exists a, x = Ok a /\ f a = Ok z.
Proof. destruct x as [a|e]; cbn; [eauto|discriminate]. Qed.

Lemma exact_full (a : nd K) m n u s v : svd_factors a m n u s v -> exact_factors a m n (length s) u s v.
Proof. intros [_ [_ [L [_ [_ [A _]]]]]] i j Hi Hj. rewrite L. apply A; assumption. Qed.

Lemma svd_site_inv (a : nd K) m n u s v k : is_mat a m n -> svd_site svd svdfunc rank (Some rk) a = Ok (u, s, v, k) ->
  svd_factors a m n u s v /\ kept_ok (s, k) /\ length s = Nat.min m n.
Proof.
  intros Ha E. cbn [svd_site] in E. apply bind_eq in E. destruct E as [[[u' s'] v'] [E1 E2]]. injection E2 as -> -> -> <-.
  pose proof (Hsvd m n a Ha) as H. rewrite E1 in H. pose proof H as [_ [_ [L _]]]. pose proof Ha as [ES [_ [Pm Pn]]].
  split; [exact H|]. split; [|exact L]. unfold kept_ok. cbn [fst snd]. split; [exact (HP m n a u s v Ha E1)|]. split.
  - intros ->. cbn in L. lia.
  - rewrite ES, L. reflexivity.
Qed.

Lemma csvd_r_step_full l r x1 t w x2 cl cr z s k :
  chain_ok (x1 ++ t :: w :: x2) l r -> Forall left_iso x1 -> Forall right_iso (w :: x2) -> (Z.of_nat (length x1) <= cl)%Z ->
  csvd_r_step svd svdfunc rank (Some rk) (mkLt (x1 ++ t :: w :: x2) cl cr) (Z.of_nat (length x1)) = Ok (z, (s, k)) ->
  exists u w' cr', z = mkLt (x1 ++ u :: w' :: x2) (Z.of_nat (length x1) + 1) cr' /\
    chain_ok (x1 ++ u :: w' :: x2) l r /\ left_iso u /\ pdims u = pdims t /\ pdims w' = pdims w /\ (kept_ok (s, k) /\ length s <= ldim w) /\
    truncation l r (x1 ++ t :: w :: x2) (x1 ++ u :: w' :: x2) (S (length x1)) s k.
Proof.
  intros HC HL HR Hcl E.
  pose proof (outc_inv _ _ _ _ (csvd_r_step_spec svd svdfunc Hsvd Hts l r rank (Some rk) x1 t w x2 cl cr HC Hrank Hrk Hcl) E) as H. cbn beta in H.
  destruct H as [u [w' [s' [k' [V' [E1 [HC' [SP [H1 [H2 [RS [AB _]]]]]]]]]]]]. injection E1 as -> <- <-.
  pose proof SP as [T1 [T2 [T3 [T4 [T5 [T6 T7]]]]]]. pose proof RS as [_ [_ [_ [R4 [R5 _]]]]].
  exists u, w', (Z.max (Z.of_nat (length x1) + 2) cr). split; [reflexivity|]. split; [exact HC'|]. split; [exact R5|]. split; [exact T4|]. split; [exact T7|].
  pose proof HC as [Hne [B Pp]]. pose proof (bonds_two _ _ _ _ _ _ B) as [B1 [Ht [Hu [El B2]]]].
  unfold pos in Pp. pose proof Pp as P'. apply Forall_app in P'. destruct P' as [P1 P']. inversion P' as [|? ? Pt P'']; subst. inversion P'' as [|? ? Pu P2]; subst. clear P' P''.
  unfold csvd_r_step, csvd_r_factor in E. cbn [lts] in E. rewrite pyget_at in E by reflexivity. cbn [bind] in E.
  rewrite (shape_last_lt t Ht) in E. cbn [bind] in E. rewrite (lmat_reshape t Ht Pt) in E. cbn [bind] in E.
  pose proof (lmat_is_mat t Ht Pt) as M. pose proof M as [_ [_ [Pm Pn]]].
  set (mm := ldim t * size (pdims t)) in *.
  destruct (svd_site svd svdfunc rank (Some rk) (lmat t)) as [[[[u0 s0] v0] k0']|e] eqn:ES; [|discriminate]. cbn [bind] in E.
  destruct (svd_site_inv _ _ _ _ _ _ _ M ES) as [SF [KO LS]].
  set (U := take_cols k0' u0) in *. set (sk := firstn k0' s0) in *. set (Vm := take_rows k0' v0) in *.
  pose proof KO as [_ [NE KE]]. cbn [fst snd] in NE, KE. assert (Hs0 : 0 < length s0) by (destruct s0; [congruence|cbn; lia]).
  specialize (Hrk s0).
  destruct (svd_keep (lmat t) mm (rdim t) u0 s0 v0 k0' SF ltac:(lia) ltac:(lia)) as [KF _]. fold U sk Vm in KF.
  pose proof KF as [K1 [K2 [K3 [K4 [K5 [K6 [K7 _]]]]]]].
  rewrite (removelast_shp t Ht) in E. change ((ldim t :: pdims t) ++ [k0']) with (ldim t :: pdims t ++ [k0']) in E.
  rewrite (zshape_reshape U (ldim t :: pdims t ++ [k0'])) in E by (rewrite K3, size_cons, size_app, size_single, size2; unfold mm; ring). cbn [bind] in E.
  replace (Z.of_nat (length x1) + 1)%Z with (Z.of_nat (S (length x1))) in E by lia.
  replace (x1 ++ t :: w :: x2) with ((x1 ++ [t]) ++ w :: x2) in E at 1 by (rewrite <- app_assoc; reflexivity).
  rewrite pyget_at in E by (rewrite app_length; cbn; lia). cbn [bind] in E.
  destruct (scale_rows_spec Vm sk k0' (rdim t) K5 K7) as [sv [F1 [S1 [W1 G1]]]]. rewrite F1 in E. cbn [bind] in E.
  destruct (split_left t w U sv k0' Ht Pt Hu Pu El K3 K4 S1 W1 K1) as [D1 [D2 [D3 [D4 [D5 [D6 D7]]]]]].
  rewrite D1 in E. cbn [bind] in E. pose proof D2 as [Y1 [Y2 [Y3 [Y4 [Y5 [Y6 Y7]]]]]].
  rewrite update_two in E by (auto; congruence). cbn zeta in E. cbn [bind] in E. injection E as E2 _ _ <- <-.
  apply app_inv_head in E2. injection E2 as <- <-.
  split; [split; [exact KO|lia]|].
  destruct (svd_keep (lmat t) mm (rdim t) u0 s0 v0 (length s0) SF ltac:(lia) ltac:(lia)) as [KF' EF'].
  rewrite firstn_all in KF', EF'. specialize (EF' ltac:(lia)).
  destruct (rsplit_mk t (length s0) _ _ _ Ht Pt KF') as [RS' RE']. specialize (RE' EF'). fold mm in RE'.
  pose proof SF as [SU [WU [_ [SV [WV _]]]]].
  pose proof KF' as [_ [_ [Q3 [Q4 [Q5 [Q6 _]]]]]].
  destruct (lten_spec U (ldim t) (pdims t) _ k0' K3 K4 eq_refl) as [_ [_ [_ [_ [_ [LA _]]]]]].
  destruct (lten_spec (take_cols (length s0) u0) (ldim t) (pdims t) _ (length s0) Q3 Q4 eq_refl) as [_ [_ [_ [_ [_ [LB _]]]]]].
  destruct (take_cols_spec u0 mm mm k0' SU ltac:(lia)) as [_ [_ CA]]. destruct (take_cols_spec u0 mm mm (length s0) SU ltac:(lia)) as [_ [_ CB]].
  destruct (take_rows_spec v0 (rdim t) (rdim t) k0' SV ltac:(lia)) as [_ [_ RA]]. destruct (take_rows_spec v0 (rdim t) (rdim t) (length s0) SV ltac:(lia)) as [_ [_ RB]].
  eapply (truncation_r x1 t w x2 _ _ _ l r k0' s0 _ HC HL HR ltac:(lia) RS' RE'); [exact Y1|exact Y3|exact Y4|congruence| |].
  - split; [exact Y2|]. split; [congruence|]. split; [exact Y7|]. split; [exact Y6|]. intros c j b Hc Hj Hb. rewrite (D7 c j b Hc Hj Hb).
    apply bigsum_ext. intros d Hd. rewrite (G1 c d Hc Hd). unfold sk, Vm. rewrite nth_firstn, RA, RB by (assumption || lia). reflexivity.
  - intros a i c Ha Hi Hc. rewrite (LA a i c Ha Hi Hc), (LB a i c Ha Hi ltac:(lia)).
    assert (Hri : ravel (ldim t :: pdims t) (a :: i) < mm) by (cbn [ravel]; pose proof (ravel_lt _ _ Hi); unfold mm; nia).
    unfold U. rewrite CA, CB by (assumption || lia). reflexivity.
Qed.

Lemma csvd_l_step_full l r x1 w t x2 cl cr z s k :
  chain_ok (x1 ++ w :: t :: x2) l r -> Forall left_iso (x1 ++ [w]) -> Forall right_iso x2 -> (cr <= Z.of_nat (length x1) + 2)%Z ->
  csvd_l_step svd svdfunc rank (Some rk) (mkLt (x1 ++ w :: t :: x2) cl cr) (Z.of_nat (length x1) + 1) = Ok (z, (s, k)) ->
  exists w' v cl', z = mkLt (x1 ++ w' :: v :: x2) cl' (Z.of_nat (length x1) + 1) /\
    chain_ok (x1 ++ w' :: v :: x2) l r /\ right_iso v /\ pdims w' = pdims w /\ pdims v = pdims t /\ (kept_ok (s, k) /\ length s <= rdim w) /\
    truncation l r (x1 ++ w :: t :: x2) (x1 ++ w' :: v :: x2) (S (length x1)) s k.
Proof.
  intros HC HL HR Hcr E.
  pose proof (outc_inv _ _ _ _ (csvd_l_step_spec svd svdfunc Hsvd Hts l r rank (Some rk) x1 w t x2 cl cr HC Hrank Hrk Hcr) E) as H. cbn beta in H.
  destruct H as [w' [v [s' [k' [U' [E1 [HC' [SP [H1 [H2 [RS [AB _]]]]]]]]]]]]. injection E1 as -> <- <-.
  pose proof SP as [T1 [T2 [T3 [T4 [T5 [T6 T7]]]]]]. pose proof RS as [_ [_ [_ [R4 [R5 _]]]]].
  exists w', v, (Z.min (Z.of_nat (length x1)) cl). split; [reflexivity|]. split; [exact HC'|]. split; [exact R5|]. split; [exact T4|]. split; [exact T7|].
  pose proof HC as [Hne [B Pp]]. pose proof (bonds_two _ _ _ _ _ _ B) as [B1 [Hw [Ht [El B2]]]].
  unfold pos in Pp. pose proof Pp as P'. apply Forall_app in P'. destruct P' as [P1 P']. inversion P' as [|? ? Pw P'']; subst. inversion P'' as [|? ? Pt P2]; subst. clear P' P''.
  unfold csvd_l_step in E. cbn [lts] in E.
  replace (Z.of_nat (length x1) + 1)%Z with (Z.of_nat (S (length x1))) in E by lia.
  replace (x1 ++ w :: t :: x2) with ((x1 ++ [w]) ++ t :: x2) in E at 1 by (rewrite <- app_assoc; reflexivity).
  rewrite pyget_at in E by (rewrite app_length; cbn; lia). cbn [bind] in E.
  rewrite (shape0_lt t Ht) in E. cbn [bind] in E. rewrite (rmat_reshape t Ht Pt) in E. cbn [bind] in E.
  pose proof (rmat_is_mat t Ht Pt) as M. pose proof M as [_ [_ [Pm Pn]]].
  set (nn := size (pdims t) * rdim t) in *.
  destruct (svd_site svd svdfunc rank (Some rk) (rmat t)) as [[[[u0 s0] v0] k0']|e] eqn:ES; [|discriminate]. cbn [bind] in E.
  destruct (svd_site_inv _ _ _ _ _ _ _ M ES) as [SF [KO LS]].
  set (U := take_cols k0' u0) in *. set (sk := firstn k0' s0) in *. set (Vm := take_rows k0' v0) in *.
  pose proof KO as [_ [NE KE]]. cbn [fst snd] in NE, KE. assert (Hs0 : 0 < length s0) by (destruct s0; [congruence|cbn; lia]).
  specialize (Hrk s0).
  destruct (svd_keep (rmat t) (ldim t) nn u0 s0 v0 k0' SF ltac:(lia) ltac:(lia)) as [KF _]. fold U sk Vm in KF.
  pose proof KF as [K1 [K2 [K3 [K4 [K5 [K6 [K7 _]]]]]]].
  replace (Z.of_nat (S (length x1)) - 1)%Z with (Z.of_nat (length x1)) in E by lia.
  rewrite pyget_at in E by reflexivity. cbn [bind] in E.
  destruct (scale_cols_spec U sk (ldim t) k0' K3 K7) as [us [F1 [S1 [W1 G1]]]]. rewrite F1 in E. cbn [bind] in E. rewrite El in S1.
  destruct (split_right w t Vm us k0' Hw Pw Ht Pt El K5 K6 S1 W1 K1) as [D1 [D2 [D3 [D4 [D5 [D6 D7]]]]]].
  rewrite D1 in E. cbn [bind] in E. rewrite (tl_shp t Ht) in E.
  rewrite (zshape_reshape Vm (k0' :: pdims t ++ [rdim t])) in E by (rewrite K5, size_cons, size_app, size_single, size2; unfold nn; ring). cbn [bind] in E.
  pose proof D2 as [Y1 [Y2 [Y3 [Y4 [Y5 [Y6 Y7]]]]]].
  replace (Z.of_nat (S (length x1)) + 1)%Z with (Z.of_nat (length x1) + 2)%Z in E by lia.
  rewrite update_two in E by (auto; congruence). cbn zeta in E. cbn [bind] in E. injection E as E2 _ _ <- <-.
  apply app_inv_head in E2. injection E2 as <- <-.
  split; [split; [exact KO|lia]|].
  destruct (svd_keep (rmat t) (ldim t) nn u0 s0 v0 (length s0) SF ltac:(lia) ltac:(lia)) as [KF' EF'].
  rewrite firstn_all in KF', EF'. specialize (EF' ltac:(lia)).
  destruct (lsplit_mk t (length s0) _ _ _ Ht Pt KF') as [RS' RE']. specialize (RE' EF').
  pose proof SF as [SU [WU [_ [SV [WV _]]]]].
  pose proof KF' as [_ [_ [Q3 [Q4 [Q5 [Q6 _]]]]]].
  destruct (rten_spec Vm (pdims t) (rdim t) k0' _ K5 K6 eq_refl) as [_ [_ [_ [_ [_ [LA _]]]]]].
  destruct (rten_spec (take_rows (length s0) v0) (pdims t) (rdim t) (length s0) _ Q5 Q6 eq_refl) as [_ [_ [_ [_ [_ [LB _]]]]]].
  destruct (take_cols_spec u0 (ldim t) (ldim t) k0' SU ltac:(lia)) as [_ [_ CA]]. destruct (take_cols_spec u0 (ldim t) (ldim t) (length s0) SU ltac:(lia)) as [_ [_ CB]].
  destruct (take_rows_spec v0 nn nn k0' SV ltac:(lia)) as [_ [_ RA]]. destruct (take_rows_spec v0 nn nn (length s0) SV ltac:(lia)) as [_ [_ RB]].
  eapply (truncation_l x1 w t x2 _ _ _ l r k0' s0 _ HC HL HR ltac:(lia) RS' RE'); [exact Y2|congruence|exact Y7|exact Y6| |].
  - split; [exact Y1|]. split; [exact Y3|]. split; [exact Y4|]. split; [exact D3|]. intros a j c Ha Hj Hc. rewrite (D7 a j c Ha Hj Hc).
    apply bigsum_ext. intros d Hd. rewrite (G1 d c) by lia. unfold sk, U. rewrite nth_firstn, CA, CB by (assumption || lia). reflexivity.
  - intros c i b Hc Hi Hb. rewrite (LA c i b Hc Hi Hb), (LB c i b ltac:(lia) Hi Hb).
    assert (Hri : ravel (pdims t ++ [rdim t]) (i ++ [b]) < nn).
    { unfold nn. rewrite <- (size_single (rdim t)) at 2. rewrite <- size_app. apply ravel_lt. apply inr_app; [exact Hi|apply inr_single; exact Hb]. }
    unfold Vm. rewrite RA, RB by (assumption || lia). reflexivity.
Qed.

(** ** The sweeps *)
(** [zs] is reached from [ts] by truncations at the cuts [js]. *)
Fixpoint trunc_seq (l r : nat) (ts : list (nd K)) (js : list nat) (ys : list (list K * nat)) (zs : list (nd K)) : Prop :=
  match js, ys with
  | [], [] => zs = ts
  | j :: js', (s, k) :: ys' => exists us, map pdims us = map pdims ts /\ chain_ok us l r /\ truncation l r ts us j s k /\ trunc_seq l r us js' ys' zs
  | _, _ => False
  end.

Lemma csvd_r_sweep D l r : forall n x1 y rest cl cr z ys, length rest = n ->
  chain_ok (x1 ++ y :: rest) l r -> Forall left_iso x1 -> Forall right_iso rest -> Forall (fun t => ldim t <= D) rest -> (Z.of_nat (length x1) <= cl)%Z ->
  csvd_loop (csvd_r_step svd svdfunc rank (Some rk)) (map (fun k => Z.of_nat (length x1 + k)) (seq 0 n)) (mkLt (x1 ++ y :: rest) cl cr) = Ok (z, ys) ->
  trunc_seq l r (x1 ++ y :: rest) (map (fun k => S (length x1 + k)) (seq 0 n)) ys (lts z) /\ Forall (fun y => kept_ok y /\ length (fst y) <= D) ys.
Proof.
  induction n as [|n IH]; intros x1 y rest cl cr z ys Ln HC HL HR HD Hcl E.
  { cbn in E. injection E as <- <-. cbn. auto. }
  destruct rest as [|w x2]; [discriminate|]. rewrite seq_shift_Z in E. cbn [csvd_loop] in E.
  apply bind_eq in E. destruct E as [[z1 [s k]] [E1 E]]. apply bind_eq in E. destruct E as [[z2 ys2] [E2 E]]. cbn [fst snd] in *. injection E as <- <-.
  destruct (csvd_r_step_full l r x1 y w x2 cl cr z1 s k HC HL HR Hcl E1) as [u [w' [cr' [-> [HC' [LU [PU [PW [[KO LD] TR]]]]]]]]].
  assert (EX : x1 ++ u :: w' :: x2 = (x1 ++ [u]) ++ w' :: x2) by (rewrite <- app_assoc; reflexivity).
  assert (LX : length (x1 ++ [u]) = S (length x1)) by (rewrite app_length; cbn; lia).
  rewrite EX in *. rewrite <- LX in E2. inversion HR as [|? ? HR1 HR2]; subst. inversion HD as [|? ? HD1 HD2]; subst.
  destruct (IH (x1 ++ [u]) w' x2 (Z.of_nat (length x1) + 1)%Z cr' _ _ ltac:(cbn in Ln; lia) HC' ltac:(apply Forall_app; auto) HR2 HD2 ltac:(rewrite LX; lia) E2) as [T F].
  split; [|constructor; [split; [exact KO|cbn [fst]; lia]|exact F]].
  cbn [seq map]. rewrite Nat.add_0_r. cbn [trunc_seq]. exists ((x1 ++ [u]) ++ w' :: x2).
  split; [rewrite <- app_assoc, !map_app; cbn [app map]; rewrite PU, PW; reflexivity|]. split; [exact HC'|]. split; [exact TR|].
  rewrite <- seq_shift, map_map. erewrite map_ext; [exact T|]. intros a. rewrite LX. lia.
Qed.

Lemma csvd_l_sweep D l r : forall n xs y x2 cl cr z ys, length xs = n ->
  chain_ok (xs ++ y :: x2) l r -> Forall left_iso xs -> Forall right_iso x2 -> Forall (fun t => rdim t <= D) xs -> (cr <= Z.of_nat (length xs) + 1)%Z ->
  csvd_loop (csvd_l_step svd svdfunc rank (Some rk)) (map (fun k => Z.of_nat (n - k)) (seq 0 n)) (mkLt (xs ++ y :: x2) cl cr) = Ok (z, ys) ->
  trunc_seq l r (xs ++ y :: x2) (map (fun k => n - k) (seq 0 n)) ys (lts z) /\ Forall (fun y => kept_ok y /\ length (fst y) <= D) ys.
Proof.
  induction n as [|n IH]; intros xs y x2 cl cr z ys Ln HC HL HR HD Hcr E.
  { cbn in E. injection E as <- <-. cbn. auto. }
  destruct (exists_last (l := xs)) as [x1 [w ->]]; [intros ->; discriminate|]. rewrite app_length in Ln, Hcr. cbn in Ln, Hcr.
  assert (E0 : map (fun k => Z.of_nat (S n - k)) (seq 0 (S n)) = (Z.of_nat n + 1)%Z :: map (fun k => Z.of_nat (n - k)) (seq 0 n)) by exact (seq_down_Z 0 n).
  rewrite E0 in E. cbn [csvd_loop] in E.
  apply bind_eq in E. destruct E as [[z1 [s k]] [E1 E]]. apply bind_eq in E. destruct E as [[z2 ys2] [E2 E]]. cbn [fst snd] in *. injection E as <- <-.
  assert (EX : (x1 ++ [w]) ++ y :: x2 = x1 ++ w :: y :: x2) by (rewrite <- app_assoc; reflexivity). rewrite EX in *.
  assert (Ln1 : length x1 = n) by lia. rewrite <- Ln1 in E1.
  destruct (csvd_l_step_full l r x1 w y x2 cl cr z1 s k HC HL HR ltac:(lia) E1) as [w' [v [cl' [-> [HC' [RV [PW [PV [[KO LD] TR]]]]]]]]].
  apply Forall_app in HL. destruct HL as [HL _]. apply Forall_app in HD. destruct HD as [HD HD1]. pose proof (Forall_inv HD1) as HD2. cbn beta in HD2.
  destruct (IH x1 w' (v :: x2) cl' (Z.of_nat (length x1) + 1)%Z _ _ Ln1 HC' HL ltac:(constructor; assumption) HD ltac:(lia) E2) as [T F].
  split; [|constructor; [split; [exact KO|cbn [fst]; lia]|exact F]].
  cbn [seq map]. rewrite Nat.sub_0_r. cbn [trunc_seq]. exists (x1 ++ w' :: v :: x2).
  split; [rewrite !map_app; cbn [app map]; rewrite PV, PW; reflexivity|]. split; [exact HC'|]. split; [rewrite <- Ln1; exact TR|].
  rewrite <- seq_shift, map_map. exact T.
Qed.

End WithSVD.
End Trunc.

(** ** The dense specification *)
Section Dense.
Context {K : StarRing}.
Add Ring Kr2 : (k_ring K).

(** Arrays of shape [sh], as functions of one index tuple per site.  Across the cut
    after [j] sites [A] has the singular value decomposition
    [sum_{c < length s} U_c s_c V_c], and [B] is the sum of the first [k] terms. *)
Definition cut_trunc (sh : list (list nat)) (A B : list (list nat) -> K) (j : nat) (s : list K) (k : nat) : Prop :=
  exists (U : list (list nat) -> nat -> K) (V : nat -> list (list nat) -> K),
    (forall is1 is2, valid_idx is1 (firstn j sh) -> valid_idx is2 (skipn j sh) ->
       A (is1 ++ is2) = bigsum (length s) (fun c => U is1 c * nth c s k0 * V c is2)%K /\
       B (is1 ++ is2) = bigsum k (fun c => U is1 c * nth c s k0 * V c is2)%K) /\
    (forall c e, c < length s -> e < length s -> msums (firstn j sh) (fun is => kconj (U is c) * U is e)%K = delta c e) /\
    (forall c e, c < length s -> e < length s -> msums (skipn j sh) (fun is => V c is * kconj (V e is))%K = delta c e) /\
    (forall c, c < length s -> kconj (nth c s k0) = nth c s k0).
(** [B] is reached from [A] by truncating at the cuts [js]; [ys]: the singular
    values and the number of terms kept at each cut. *)
Fixpoint truncs (sh : list (list nat)) (A : list (list nat) -> K) (js : list nat) (ys : list (list K * nat)) (B : list (list nat) -> K) : Prop :=
  match js, ys with
  | [], [] => forall is, valid_idx is sh -> B is = A is
  | j :: js', (s, k) :: ys' => exists A', cut_trunc sh A A' j s k /\ truncs sh A' js' ys' B
  | _, _ => False
  end.

Lemma cut_trunc_dense sh (A : list (list nat) -> K) ts us j s k : map pdims ts = sh ->
  (forall is, valid_idx is sh -> A is = amp ts is 0 0) -> truncation 1 1 ts us j s k -> cut_trunc sh A (fun is => amp us is 0 0) j s k.
Proof.
  intros Es HA [U [V [H1 [H2 [H3 H4]]]]]. exists (fun is c => U is 0 c), (fun c is => V c is 0). subst sh.
  rewrite <- ?firstn_map, <- ?skipn_map in *. split; [|split; [|split; [|exact H4]]].
  - intros is1 is2 V1 V2. rewrite HA; [apply H1; auto|].
    rewrite <- (firstn_skipn j (map pdims ts)). apply Forall2_app; assumption.
  - intros c e Hc He. rewrite <- (H2 c e Hc He), bigsum_1. reflexivity.
  - intros c e Hc He. rewrite <- (H3 c e Hc He), bigsum_1. reflexivity.
Qed.
Lemma truncs_dense sh (zs : list (nd K)) : forall js ys ts (A : list (list nat) -> K), map pdims ts = sh ->
  (forall is, valid_idx is sh -> A is = amp ts is 0 0) -> trunc_seq 1 1 ts js ys zs -> truncs sh A js ys (fun is => amp zs is 0 0).
Proof.
  induction js as [|j js IH]; intros [|[s k] ys] ts A Es HA H; cbn [trunc_seq truncs] in *; try contradiction.
  - subst zs. intros is Hi. symmetry. apply HA, Hi.
  - destruct H as [us [E1 [HC [TR H]]]]. exists (fun is => amp us is 0 0). split; [exact (cut_trunc_dense sh A ts us j s k Es HA TR)|].
    apply (IH ys us); [congruence|reflexivity|exact H].
Qed.
Lemma truncs_ext sh : forall js ys (A A' B B' : list (list nat) -> K), (forall is, valid_idx is sh -> A' is = A is) ->
  (forall is, valid_idx is sh -> B' is = B is) -> truncs sh A js ys B -> truncs sh A' js ys B'.
Proof.
  induction js as [|j js IH]; intros [|[s k] ys] A A' B B' HA HB H; cbn [truncs] in *; try contradiction.
  - intros is Hi. rewrite HA, HB by exact Hi. apply H, Hi.
  - destruct H as [C [[U [V [H1 [H2 [H3 H4]]]]] H]]. exists C. split; [|exact (IH ys C C B B' (fun _ _ => eq_refl) HB H)].
    exists U, V. split; [|auto]. intros is1 is2 V1 V2. rewrite HA; [apply H1; assumption|].
    rewrite <- (firstn_skipn j sh). apply Forall2_app; assumption.
Qed.

Lemma down_seq n : map (fun k => n - k) (seq 0 n) = rev (seq 1 n).
Proof.
  induction n as [|n IH]; [reflexivity|]. rewrite (seq_S n 1), rev_app_distr. cbn [rev app seq map]. rewrite Nat.sub_0_r. f_equal.
  rewrite <- IH, <- seq_shift, map_map. reflexivity.
Qed.

Section API.
Variable qr : nd K -> res (nd K * nd K).
Hypothesis Hqr : qr_sound qr.
Variable svd : nd K -> res (nd K * list K * nd K).
Variable svdfunc : nd K -> nat -> res (nd K * list K * nd K).
Hypothesis Hsvd : svd_sound svd.
Hypothesis Hts : tsvd_sound svdfunc.
Variable P : list K -> Prop.
Hypothesis HP : forall m n a u s v, is_mat a m n -> svd a = Ok (u, s, v) -> P s.
Variable rk : list K -> nat.
Hypothesis Hrk : forall s, 0 < rk s.

(** The number of kept values with argument [rank]. *)
Definition kept_of (rank : option nat) (y : list K * nat) : Prop :=
  P (fst y) /\ fst y <> [] /\
  snd y = Nat.min (match rank with Some r => Nat.min (length (fst y)) r | None => length (fst y) end) (rk (fst y)).

Definition goes_left (x : ltens K) (dir : dirarg) : bool :=
  match dir with DNone => (lcan x <? Z.of_nat (llen x) - rcan x)%Z | DLeft => true | _ => false end.

Lemma sim_entry (x y : ltens K) is : mpa_pos x -> sim 1 1 x y -> valid_idx is (mshape x) -> amp (lts y) is 0 0 = entry x is.
Proof. intros [Hx _] [_ [_ [_ [S4 _]]]] Hi. rewrite (entry_amp x is Hx Hi). apply S4; auto. Qed.

Lemma canon_tail (y : ltens K) : canon_true y -> (rcan y <= 1)%Z -> Forall right_iso (tl (lts y)).
Proof.
  intros [_ H] Hr. apply Forall_forall. intros t Ht. destruct (In_nth _ _ dummy Ht) as [k [Hk <-]]. unfold llen in H.
  destruct (lts y) as [|a ts]; [destruct Ht|]. cbn [tl] in *. apply (H (S k)); cbn [length]; lia.
Qed.
Lemma canon_front (y : ltens K) : canon_true y -> (Z.of_nat (llen y) - 1 <= lcan y)%Z -> Forall left_iso (removelast (lts y)).
Proof.
  intros [H _] Hl. apply Forall_forall. intros t Ht. destruct (In_nth _ _ dummy Ht) as [k [Hk <-]]. unfold llen in *.
  destruct (exists_last (l := lts y)) as [ts [a E]]; [intros E; rewrite E in Ht; destruct Ht|]. rewrite E in *. rewrite removelast_last in *.
  rewrite app_length in *. cbn in *. specialize (H k ltac:(lia) ltac:(lia)). rewrite app_nth1 in H by exact Hk. exact H.
Qed.

Theorem compress_truncs (x : ltens K) rank dir z ov : mpa_pos x -> cform_wk x -> canon_true x -> 2 <= llen x -> rank_pos rank ->
  compress_svd qr svd svdfunc x rank (Some rk) dir true = Ok (z, ov) ->
  exists ys, truncs (mshape x) (entry x) (if goes_left x dir then rev (seq 1 (llen x - 1)) else seq 1 (llen x - 1)) ys (entry z) /\
    map snd ys = (if goes_left x dir then rev (ranks z) else ranks z) /\ Forall (kept_of rank) ys /\
    dist2_of x z = dweights ys.
Proof.
  intros Hx HF HT Hn Hrp. pose proof (pos_chain _ Hx) as HC. unfold compress_svd. destruct (Nat.eqb_spec (llen x) 1) as [E1|E1]; [lia|].
  destruct (max_rank_spec x 1 1 HC Hn) as [mk [Em [Mp [Mf Mi]]]].
  assert (HR : exists R, (match rank with Some r0 => Ok r0 | None => max_rank x end) = Ok R /\ 0 < R /\
     (forall ys, Forall (fun y => kept_ok P R rk y /\ length (fst y) <= mk) ys -> Forall (kept_of rank) ys)).
  { destruct rank as [k|]; [exists k|exists mk]; (split; [auto|]; split; [auto|]); intros ys H; eapply Forall_impl; try exact H; cbn beta;
      intros y [[K1 [K2 K3]] K4]; split; try exact K1; split; try exact K2; rewrite K3; lia. }
  destruct HR as [R [-> [Rp RK]]]. unfold canonical_form. cbn [bind].
  assert (FIN : forall y ys, sim 1 1 x y -> mpa_pos z -> mshape z = mshape y -> ovl 1 1 (lts y) (lts z) = ovl 1 1 (lts z) (lts z) ->
     ovl 1 1 (lts y) (lts y) = (ovl 1 1 (lts z) (lts z) + dweights ys)%K -> dist2_of x z = dweights ys).
  { intros y ys S Hz C2 C7 W. pose proof S as [S1 [S2 [S3 [S4 _]]]].
    rewrite (ovl_amps_both 1 1 y x S2 S4) in W. rewrite <- (ovl_amps 1 1 y x z S2 S4) in C7 || rewrite (ovl_amps 1 1 y x z S2 S4) in C7.
    rewrite (ovl_inner x x (proj1 Hx) (proj1 Hx) eq_refl), (ovl_inner z z (proj1 Hz) (proj1 Hz) eq_refl) in W.
    rewrite (ovl_inner x z (proj1 Hx) (proj1 Hz)), (ovl_inner z z (proj1 Hz) (proj1 Hz) eq_refl) in C7 by congruence.
    rewrite (pythagoras x z) by (assumption || congruence). unfold norm2_of. rewrite W. apply k_add_sub. }
  assert (HR : (do x1 <- canonicalize qr x CANone (CAInt 1); do p <- compress_svd_r svd svdfunc x1 R (Some rk); Ok (fst (fst p), snd p)) = Ok (z, ov) ->
    exists ys, truncs (mshape x) (entry x) (seq 1 (llen x - 1)) ys (entry z) /\ map snd ys = ranks z /\ Forall (kept_of rank) ys /\ dist2_of x z = dweights ys).
  { intros E. apply bind_eq in E. destruct E as [y [Ey E]]. pose proof (outc_inv _ _ _ _ (canon_r1 qr Hqr 1 1 x HC HF Hn) Ey) as [S [W [_ Hr]]].
    pose proof (sim_len _ _ _ _ S) as Len. pose proof S as [S1 [S2 [S3 [S4 [S5 S6]]]]]. pose proof W as [W1 W2].
    apply bind_eq in E. destruct E as [[[z' ys] ov'] [E2 E]]. cbn [fst snd] in E. injection E as -> ->.
    pose proof (outc_inv _ _ _ _ (compress_svd_r_spec svd svdfunc Hsvd Hts 1 1 R (Some rk) y S1 ltac:(lia) Rp Hrk ltac:(lia) ltac:(lia)) E2) as H. cbn beta in H.
    destruct H as [[C1 [C2 [_ [_ [_ [_ C7]]]]]] [_ [_ [_ [_ [M [_ WW]]]]]]]. pose proof (canon_tail y (S5 HT) Hr) as HI.
    specialize (WW ltac:(discriminate) HI). exists ys.
    unfold compress_svd_r in E2. destruct (Nat.ltb_spec 0 R); [|lia]. cbn [passert] in E2. apply bind_eq in E2. destruct E2 as [[z2 ys2] [E2 E3]].
    apply bind_eq in E3. destruct E3 as [t3 [_ E3]]. cbn [fst snd] in E3. injection E3 as -> -> _.
    assert (Hbd : Forall (fun t => ldim t <= mk) (tl (lts y))) by (apply (proj1 (Forall_map ldim (fun j => j <= mk) _)); exact (Forall2_le_bound _ _ _ S3 Mf)).
    destruct y as [[|t ts] cl cr]; [exfalso; apply (proj1 S1); reflexivity|]. unfold llen in Len, E2. cbn [lts length tl] in *.
    rewrite pyrange_up in E2 by lia. replace (Z.to_nat (Z.of_nat (Datatypes.S (length ts)) - 1 - 0)) with (length ts) in E2 by lia.
    rewrite (map_ext (fun k => (0 + Z.of_nat k)%Z) (fun k => Z.of_nat (@length (nd K) [] + k))) in E2 by reflexivity.
    destruct (csvd_r_sweep svd svdfunc Hsvd Hts P HP R rk Rp Hrk mk 1 1 (length ts) [] t ts cl cr z ys eq_refl S1 (Forall_nil _) HI Hbd ltac:(cbn [length lcan] in *; lia) E2) as [T F].
    cbn [length app Nat.add] in T. assert (EL : llen x - 1 = length ts) by (unfold llen; lia). rewrite EL. split.
    - apply (truncs_ext (mshape x) _ _ (entry x) (entry x) (fun is => amp (lts z) is 0 0) (entry z) (fun _ _ => eq_refl)).
      + intros is Hi. pose proof (chain_pos z C1) as Hz. apply entry_amp; [apply Hz|]. rewrite C2, S2. exact Hi.
      + eapply truncs_dense; [exact S2| |rewrite <- (seq_shift (length ts) 0); exact T].
        intros is Hi. symmetry. exact (sim_entry x (mkLt (t :: ts) cl cr) is Hx S Hi).
    - split; [exact M|]. split; [exact (RK ys F)|]. apply (FIN (mkLt (t :: ts) cl cr) ys S (chain_pos z C1) C2 C7 WW). }
  assert (HL : (do x1 <- canonicalize qr x (CAInt (Z.of_nat (llen x) - 1)) CANone; do p <- compress_svd_l svd svdfunc x1 R (Some rk); Ok (fst (fst p), snd p)) = Ok (z, ov) ->
    exists ys, truncs (mshape x) (entry x) (rev (seq 1 (llen x - 1))) ys (entry z) /\ map snd ys = rev (ranks z) /\ Forall (kept_of rank) ys /\ dist2_of x z = dweights ys).
  { intros E. apply bind_eq in E. destruct E as [y [Ey E]]. pose proof (outc_inv _ _ _ _ (canon_ln qr Hqr 1 1 x HC HF Hn) Ey) as [S [W [_ Hr]]].
    pose proof (sim_len _ _ _ _ S) as Len. pose proof S as [S1 [S2 [S3 [S4 [S5 S6]]]]]. pose proof W as [W1 W2].
    apply bind_eq in E. destruct E as [[[z' ys] ov'] [E2 E]]. cbn [fst snd] in E. injection E as -> ->.
    pose proof (outc_inv _ _ _ _ (compress_svd_l_spec svd svdfunc Hsvd Hts 1 1 R (Some rk) y S1 ltac:(lia) Rp Hrk ltac:(lia) ltac:(lia)) E2) as H. cbn beta in H.
    destruct H as [[C1 [C2 [_ [_ [_ [_ C7]]]]]] [_ [_ [_ [_ [M [_ WW]]]]]]]. rewrite <- Len in Hr. pose proof (canon_front y (S5 HT) Hr) as HI.
    specialize (WW ltac:(discriminate) HI). exists ys.
    unfold compress_svd_l in E2. destruct (Nat.ltb_spec 0 R); [|lia]. cbn [passert] in E2. apply bind_eq in E2. destruct E2 as [[z2 ys2] [E2 E3]].
    apply bind_eq in E3. destruct E3 as [t3 [_ E3]]. cbn [fst snd] in E3. injection E3 as -> -> _.
    pose proof (Forall2_le_bound _ _ _ S3 Mf) as Hbd. unfold ranks in Hbd.
    destruct y as [ts cl cr]. unfold llen in *. cbn [lts lcan rcan] in *.
    destruct (exists_last (l := ts)) as [xs [t ->]]; [apply (proj1 S1)|]. rewrite removelast_last in HI.
    rewrite <- (bonds_rdims xs t [] 1 1 (proj1 (proj2 S1)) eq_refl) in Hbd. apply (proj1 (Forall_map _ _ _)) in Hbd.
    rewrite app_length in *. cbn [length] in *.
    rewrite pyrange_down in E2 by lia. replace (Z.to_nat (Z.of_nat (length xs + 1) - 1 - 0)) with (length xs) in E2 by lia.
    rewrite (map_ext_in (fun k => (Z.of_nat (length xs + 1) - 1 - Z.of_nat k)%Z) (fun k => Z.of_nat (length xs - k))) in E2
      by (intros k Hk; apply in_seq in Hk; lia).
    destruct (csvd_l_sweep svd svdfunc Hsvd Hts P HP R rk Rp Hrk mk 1 1 (length xs) xs t [] cl cr z ys eq_refl S1 HI (Forall_nil _) Hbd ltac:(lia) E2) as [T F].
    replace (length (lts x) - 1) with (length xs) by lia. split.
    - apply (truncs_ext (mshape x) _ _ (entry x) (entry x) (fun is => amp (lts z) is 0 0) (entry z) (fun _ _ => eq_refl)).
      + intros is Hi. pose proof (chain_pos z C1) as Hz. apply entry_amp; [apply Hz|]. rewrite C2, S2. exact Hi.
      + eapply truncs_dense; [exact S2| |rewrite <- down_seq; exact T].
        intros is Hi. symmetry. exact (sim_entry x (mkLt (xs ++ [t]) cl cr) is Hx S Hi).
    - split; [exact M|]. split; [exact (RK ys F)|]. apply (FIN (mkLt (xs ++ [t]) cl cr) ys S (chain_pos z C1) C2 C7 WW). }
  unfold goes_left. destruct dir; [destruct (lcan x <? Z.of_nat (llen x) - rcan x)%Z|..]; try assumption. discriminate.
Qed.

End API.
End Dense.
