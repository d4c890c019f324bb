(** SVD compression and the singular values (mparray.py 812-985). *)
From Verif Require Export PfFromArray.

Section Compress.
Context {K : StarRing}.
Add Ring Kr : (k_ring K).

(** ** The truncated factors *)
Lemma take_cols_spec (u : nd K) m n k : shp u = [m; n] -> k <= n ->
  shp (take_cols k u) = [m; k] /\ ndwf (take_cols k u) /\ forall i c, i < m -> c < k -> get (take_cols k u) [i; c] = get u [i; c].
Proof.
  intros E Hk. unfold take_cols. rewrite E. cbn [nth]. rewrite Nat.min_l by exact Hk. split; [reflexivity|]. split; [apply wf_tab|].
  intros i c Hi Hc. rewrite get_tab by (apply inr2; assumption). reflexivity.
Qed.
Lemma take_rows_spec (v : nd K) m n k : shp v = [m; n] -> k <= m ->
  shp (take_rows k v) = [k; n] /\ ndwf (take_rows k v) /\ forall c j, c < k -> j < n -> get (take_rows k v) [c; j] = get v [c; j].
Proof.
  intros E Hk. unfold take_rows. rewrite E. cbn [nth]. rewrite Nat.min_l by exact Hk. split; [reflexivity|]. split; [apply wf_tab|].
  intros i c Hi Hc. rewrite get_tab by (apply inr2; assumption). reflexivity.
Qed.
Lemma scale_rows_spec (v : nd K) s k n : shp v = [k; n] -> length s = k ->
  exists w, scale_rows s v = Ok w /\ shp w = [k; n] /\ ndwf w /\ forall c j, c < k -> j < n -> get w [c; j] = (nth c s k0 * get v [c; j])%K.
Proof.
  intros E L. unfold scale_rows. rewrite E. cbn [nth]. rewrite L, Nat.eqb_refl. cbn [praise_unless].
  eexists. split; [reflexivity|]. split; [reflexivity|]. split; [apply wf_tab|]. intros c j Hc Hj.
  rewrite get_tab by (apply inr2; assumption). reflexivity.
Qed.
Lemma scale_cols_spec (u : nd K) s m k : shp u = [m; k] -> length s = k ->
  exists w, scale_cols u s = Ok w /\ shp w = [m; k] /\ ndwf w /\ forall i c, i < m -> c < k -> get w [i; c] = (get u [i; c] * nth c s k0)%K.
Proof.
  intros E L. unfold scale_cols. rewrite E. cbn [nth]. rewrite L, Nat.eqb_refl. cbn [praise_unless].
  eexists. split; [reflexivity|]. split; [reflexivity|]. split; [apply wf_tab|]. intros c j Hc Hj.
  rewrite get_tab by (apply inr2; assumption). reflexivity.
Qed.

(** The first [k] factors of a full SVD. *)
Definition kept_factors (a : nd K) (m n k : nat) (u : nd K) (s : list K) (v : nd K) : Prop :=
  0 < k /\ k <= Nat.min m n /\
  shp u = [m; k] /\ ndwf u /\ shp v = [k; n] /\ ndwf v /\ length s = k /\
  (forall c e, c < k -> e < k -> bigsum m (fun i => kconj (get u [i; c]) * get u [i; e])%K = delta c e) /\
  (forall c e, c < k -> e < k -> bigsum n (fun j => get v [c; j] * kconj (get v [e; j]))%K = delta c e) /\
  (forall c, c < k -> kconj (nth c s k0) = nth c s k0) /\
  (forall c j, c < k -> j < n -> bigsum m (fun i => kconj (get u [i; c]) * get a [i; j])%K = (nth c s k0 * get v [c; j])%K) /\
  (forall i c, i < m -> c < k -> bigsum n (fun j => get a [i; j] * kconj (get v [c; j]))%K = (get u [i; c] * nth c s k0)%K).
Definition exact_factors (a : nd K) (m n k : nat) (u : nd K) (s : list K) (v : nd K) : Prop :=
  forall i j, i < m -> j < n -> get a [i; j] = bigsum k (fun c => get u [i; c] * nth c s k0 * get v [c; j])%K.

Lemma bigsum_tail0 n k (f : nat -> K) : k <= n -> (forall c, k <= c -> c < n -> f c = k0) -> bigsum n f = bigsum k f.
Proof.
  intros Hk H. replace n with (k + (n - k)) by lia. rewrite bigsum_split. rewrite (bigsum_zero (n - k)).
  - ring.
  - intros i Hi. apply H; lia.
Qed.

Lemma svd_keep (a : nd K) m n u s v k : svd_factors a m n u s v -> 0 < k -> k <= Nat.min m n ->
  kept_factors a m n k (take_cols k u) (firstn k s) (take_rows k v) /\
  ((forall c, k <= c -> c < Nat.min m n -> nth c s k0 = k0) -> exact_factors a m n k (take_cols k u) (firstn k s) (take_rows k v)).
Proof.
  intros [S1 [W1 [L [S2 [W2 [A [U [V R]]]]]]]] H0 Hk.
  destruct (take_cols_spec u m m k S1 ltac:(lia)) as [T1 [T2 T3]]. destruct (take_rows_spec v n n k S2 ltac:(lia)) as [R1 [R2 R3]].
  assert (Ns : forall c, c < k -> nth c (firstn k s) k0 = nth c s k0) by (intros; apply nth_firstn; assumption).
  split.
  - split; [exact H0|]. split; [exact Hk|]. split; [exact T1|]. split; [exact T2|]. split; [exact R1|]. split; [exact R2|].
    split; [rewrite firstn_length; lia|]. split.
    { intros c e Hc He. rewrite <- (U c e) by lia. apply bigsum_ext. intros i Hi. rewrite !T3 by assumption. reflexivity. }
    split.
    { intros c e Hc He. rewrite <- (V c e) by lia. apply bigsum_ext. intros j Hj. rewrite !R3 by assumption. reflexivity. }
    split; [intros c Hc; rewrite Ns by exact Hc; apply R; lia|]. split.
    + intros c j Hc Hj. rewrite Ns, R3 by assumption.
      transitivity (bigsum m (fun i => bigsum (Nat.min m n) (fun e => kconj (get u [i; c]) * get u [i; e] * (nth e s k0 * get v [e; j])))%K).
      { apply bigsum_ext. intros i Hi. rewrite T3, (A i j) by assumption. rewrite <- bigsum_mul_l. apply bigsum_ext. intros e He. ring. }
      rewrite bigsum_swap. rewrite (bigsum_single _ c); [|lia|].
      * rewrite bigsum_mul_r, U, delta_eq by lia. ring.
      * intros e He Hn. rewrite bigsum_mul_r, U, delta_neq by (auto; lia). ring.
    + intros i c Hi Hc. rewrite Ns, T3 by assumption.
      transitivity (bigsum n (fun j => bigsum (Nat.min m n) (fun e => get u [i; e] * nth e s k0 * (get v [e; j] * kconj (get v [c; j]))))%K).
      { apply bigsum_ext. intros j Hj. rewrite R3, (A i j) by assumption. rewrite <- bigsum_mul_r. apply bigsum_ext. intros e He. ring. }
      rewrite bigsum_swap. rewrite (bigsum_single _ c); [|lia|].
      * rewrite bigsum_mul_l, V, delta_eq by lia. ring.
      * intros e He Hn. rewrite bigsum_mul_l, V, delta_neq by (auto; lia). ring.
  - intros Z i j Hi Hj. rewrite A by assumption. rewrite (bigsum_tail0 _ k) by (auto; intros c H1 H2; rewrite Z by assumption; ring).
    apply bigsum_ext. intros c Hc. rewrite T3, R3, Ns by assumption. reflexivity.
Qed.

Theorem truncated_svd_sound (svd : nd K -> res (nd K * list K * nd K)) : svd_sound svd -> tsvd_sound (truncated_svd svd).
Proof.
  intros H m n k a Ha Hk. specialize (H m n a Ha). unfold truncated_svd. destruct (svd a) as [[[u s] v]|e]; cbn [bind]; [|exact H].
  pose proof H as [_ [_ [L _]]]. rewrite L. set (d := Nat.min k (Nat.min m n)). destruct Ha as [_ [_ [Hm Hn]]].
  destruct (svd_keep a m n u s v d H ltac:(unfold d; lia) ltac:(unfold d; lia)) as [[K1 [K2 [K3 [K4 [K5 [K6 [K7 [K8 [K9 [K10 [K11 K12]]]]]]]]]]] Ex].
  unfold tsvd_factors. rewrite K7. split; [exact K1|]. split; [unfold d; lia|]. split; [exact K2|]. split; [unfold d; lia|].
  repeat (split; [assumption|]). intros Hle. apply Ex. intros c H1 H2. unfold d in H1. lia.
Qed.
Lemma truncated_svd_fails (svd : nd K -> res (nd K * list K * nd K)) : tsvd_fails (truncated_svd svd) -> svd_fails svd.
Proof.
  intros [m [n [k [a [Ha [Hk E]]]]]]. exists m, n, a. split; [exact Ha|]. unfold truncated_svd in E.
  destruct (svd a) as [[[u s] v]|e]; cbn [bind] in E; [discriminate|]. congruence.
Qed.

(** ** svd_site *)
(** The number of singular values that relerr asks for is at least one. *)
Definition relerr_ok (relerr : option (list K -> nat)) : Prop :=
  match relerr with None => True | Some rk => forall s, 0 < rk s end.
(** relerr only drops vanishing singular values. *)
Definition relerr_exact (relerr : option (list K -> nat)) : Prop :=
  match relerr with None => True | Some rk => forall s c, rk s <= c -> c < length s -> nth c s k0 = k0 end.

Section WithSVD.
Variable svd : nd K -> res (nd K * list K * nd K).
Variable svdfunc : nd K -> nat -> res (nd K * list K * nd K).
Hypothesis Hsvd : svd_sound svd.
Hypothesis Hts : tsvd_sound svdfunc.
Definition FS : Prop := svd_fails svd \/ tsvd_fails svdfunc.

Lemma firstn_len_all (A : Type) (l : list A) : firstn (length l) l = l.
Proof. apply firstn_all. Qed.

(** The number of values kept with relerr. *)
Definition relerr_rank (relerr : option (list K -> nat)) (m n rank k : nat) (s : list K) : Prop :=
  match relerr with None => k = length s | Some rk => length s = Nat.min m n /\ k = Nat.min (Nat.min (Nat.min m n) rank) (rk s) end.

Lemma svd_site_spec (a : nd K) m n rank relerr : is_mat a m n -> 0 < rank -> relerr_ok relerr ->
  outc FS (svd_site svd svdfunc rank relerr a)
    (fun f => let '(u, s, v, k) := f in
       k <= rank /\ k <= length s /\ relerr_rank relerr m n rank k s /\
       kept_factors a m n k (take_cols k u) (firstn k s) (take_rows k v) /\
       (relerr_exact relerr -> Nat.min m n <= rank -> exact_factors a m n k (take_cols k u) (firstn k s) (take_rows k v))).
Proof.
  intros Ha Hk Hr. destruct relerr as [rk|]; cbn [svd_site].
  - eapply outc_bind; [eapply outc_weaken; [apply (svd_outc svd m n a Hsvd Ha)|intros HF; left; exact HF|intros z Hz; exact Hz]|].
    intros [[u s] v] H. cbn [fst snd] in H. apply outc_ok. pose proof Ha as [-> [_ [Hm Hn]]]. cbn [nth].
    pose proof H as [_ [_ [L _]]]. specialize (Hr s). set (k := Nat.min (Nat.min (Nat.min m n) rank) (rk s)).
    destruct (svd_keep a m n u s v k H ltac:(unfold k; lia) ltac:(unfold k; lia)) as [K1 K2].
    split; [unfold k; lia|]. split; [rewrite L; unfold k; lia|]. split; [split; [exact L|reflexivity]|]. split; [exact K1|].
    intros Hx Hle. apply K2. intros c H1 H2. apply (Hx s c); [|lia]. unfold k in H1. lia.
  - eapply outc_bind; [eapply outc_weaken; [apply (tsvd_outc svdfunc m n rank a Hts Ha Hk)|intros HF; right; exact HF|intros z Hz; exact Hz]|].
    intros [[u s] v] H. cbn [fst snd] in H. apply outc_ok.
    destruct H as [T1 [T2 [T3 [T4 [T5 [T6 [T7 [T8 [T9 [T10 [T11 [T12 [T13 T14]]]]]]]]]]]]]. set (k := length s) in *.
    assert (Ek : firstn k s = s) by apply firstn_all.
    destruct (take_cols_spec u m k k T5 (le_n _)) as [C1 [C2 C3]]. destruct (take_rows_spec v k n k T7 (le_n _)) as [R1 [R2 R3]].
    split; [exact T2|]. split; [lia|]. split; [reflexivity|]. rewrite Ek. split.
    + split; [exact T1|]. split; [exact T3|]. split; [exact C1|]. split; [exact C2|]. split; [exact R1|]. split; [exact R2|]. split; [reflexivity|].
      split; [intros c e Hc He; rewrite <- (T9 c e) by assumption; apply bigsum_ext; intros i Hi; rewrite !C3 by assumption; reflexivity|].
      split; [intros c e Hc He; rewrite <- (T10 c e) by assumption; apply bigsum_ext; intros i Hi; rewrite !R3 by assumption; reflexivity|].
      split; [exact T11|]. split.
      * intros c j Hc Hj. rewrite R3, <- T12 by assumption. apply bigsum_ext. intros i Hi. rewrite C3 by assumption. reflexivity.
      * intros i c Hi Hc. rewrite C3, <- T13 by assumption. apply bigsum_ext. intros j Hj. rewrite R3 by assumption. reflexivity.
    + intros _ Hle i j Hi Hj. rewrite T14 by assumption. fold k. apply bigsum_ext. intros c Hc. rewrite C3, R3 by assumption. reflexivity.
Qed.


(** ** One step of _compress_svd_r *)
(** [t] is split into the isometry [u] and the matrix [diag(s) V]. *)
Definition rsplit (t : nd K) (k : nat) (s : list K) (u : nd K) (V : nat -> nat -> K) : Prop :=
  lt_ok u /\ ldim u = ldim t /\ pdims u = pdims t /\ rdim u = k /\ left_iso u /\ length s = k /\ 0 < k /\ k <= rdim t /\ tall u /\
  (forall c e, c < k -> e < k -> bigsum (rdim t) (fun d => V c d * kconj (V e d))%K = delta c e) /\
  (forall c, c < k -> kconj (nth c s k0) = nth c s k0) /\
  (forall c d, c < k -> d < rdim t -> bigsum (ldim t) (fun a => egram t u a a d c) = kconj (nth c s k0 * V c d)%K).
Definition rexact (t : nd K) (k : nat) (s : list K) (u : nd K) (V : nat -> nat -> K) : Prop :=
  forall a i d, a < ldim t -> inr i (pdims t) -> d < rdim t ->
    ent t a i d = bigsum k (fun c => ent u a i c * nth c s k0 * V c d)%K.

Lemma rsplit_mk (t : nd K) k U s V : lt_ok t -> 0 < size (shp t) ->
  kept_factors (lmat t) (ldim t * size (pdims t)) (rdim t) k U s V ->
  rsplit t k s (reshape U (ldim t :: pdims t ++ [k])) (fun c d => get V [c; d]) /\
  (exact_factors (lmat t) (ldim t * size (pdims t)) (rdim t) k U s V -> rexact t k s (reshape U (ldim t :: pdims t ++ [k])) (fun c d => get V [c; d])).
Proof.
  intros Ht Pt [K1 [K2 [K3 [K4 [K5 [K6 [K7 [K8 [K9 [K10 [K11 K12]]]]]]]]]]].
  destruct (lten_spec U (ldim t) (pdims t) _ k K3 K4 eq_refl) as [A1 [A2 [A3 [A4 [A5 [A6 A7]]]]]].
  split.
  - split; [exact A1|]. split; [exact A2|]. split; [exact A3|]. split; [exact A4|]. split; [apply A7; exact K8|]. split; [exact K7|].
    split; [exact K1|]. split; [lia|]. split; [unfold tall; rewrite A2, A3, A4; lia|]. split; [exact K9|]. split; [exact K10|].
    intros c d Hc Hd. rewrite <- (K11 c d Hc Hd). rewrite bigsum_conj, bigsum_left. apply bigsum_ext. intros a Ha. unfold egram.
    apply msum_ext. intros i Hi. rewrite (A6 a i c Ha Hi Hc), (get_lmat t a i d Ht Ha Hi Hd), (kconj_mul K), (kconj_invol K). ring.
  - intros Ex a i d Ha Hi Hd. rewrite <- (get_lmat t a i d Ht Ha Hi Hd). rewrite Ex by (auto; cbn [ravel]; pose proof (ravel_lt _ _ Hi); nia).
    apply bigsum_ext. intros c Hc. rewrite (A6 a i c Ha Hi Hc). reflexivity.
Qed.

(** The sum of the squared entries is the sum of the squared singular values. *)
Lemma exact_abs2 (t : nd K) k s u V : lt_ok t -> rsplit t k s u V -> rexact t k s u V ->
  abs2 t = bigsum k (fun c => nth c s k0 * nth c s k0)%K.
Proof.
  intros Ht [R1 [R2 [R3 [R4 [R5 [R6 [R7 [R8 [R9 [R10 [R11 R12]]]]]]]]]]] Ex. rewrite (abs2_ent t Ht).
  transitivity (bigsum (rdim t) (fun d => bigsum k (fun c => kconj (nth c s k0 * V c d) * (nth c s k0 * V c d)))%K).
  - rewrite bigsum_swap. apply bigsum_ext. intros d Hd.
    transitivity (bigsum (ldim t) (fun a => bigsum k (fun c => egram t u a a d c * (nth c s k0 * V c d)))%K).
    + apply bigsum_ext. intros a Ha. unfold egram.
      transitivity (msum (pdims t) (fun i => bigsum k (fun c => kconj (ent t a i d) * ent u a i c * (nth c s k0 * V c d)))%K).
      * apply msum_ext. intros i Hi. rewrite (Ex a i d Ha Hi Hd) at 2. rewrite <- bigsum_mul_l. apply bigsum_ext. intros c Hc. ring.
      * rewrite msum_bigsum_swap. apply bigsum_ext. intros c Hc. rewrite msum_mul_r. reflexivity.
    + rewrite bigsum_swap. apply bigsum_ext. intros c Hc. rewrite bigsum_mul_r, R12 by assumption. reflexivity.
  - rewrite bigsum_swap. apply bigsum_ext. intros c Hc.
    transitivity (bigsum (rdim t) (fun d => nth c s k0 * nth c s k0 * (V c d * kconj (V c d)))%K).
    + apply bigsum_ext. intros d Hd. rewrite (kconj_mul K), (R11 c Hc). ring.
    + rewrite bigsum_mul_l, R10, delta_eq by assumption. ring.
Qed.

(** The next site after the step. *)
Definition absorbs (t w w' : nd K) (k : nat) (M : nat -> nat -> K) : Prop :=
  lt_ok w' /\ ldim w' = k /\ pdims w' = pdims w /\ rdim w' = rdim w /\
  forall c j b, c < k -> inr j (pdims w) -> b < rdim w -> ent w' c j b = bigsum (rdim t) (fun d => M c d * ent w d j b)%K.

Lemma absorbs_abs2 (t w w' : nd K) k s u V : ldim w = rdim t -> right_iso w -> rsplit t k s u V ->
  absorbs t w w' k (fun c d => nth c s k0 * V c d)%K -> abs2 w' = bigsum k (fun c => nth c s k0 * nth c s k0)%K.
Proof.
  intros El RI [R1 [R2 [R3 [R4 [R5 [R6 [R7 [R8 [R9 [R10 [R11 R12]]]]]]]]]]] [A1 [A2 [A3 [A4 A5]]]]. rewrite (abs2_ent w' A1), A2, A4.
  apply bigsum_ext. intros c Hc.
  transitivity (bigsum (rdim w) (fun b => bigsum (rdim t) (fun d => bigsum (rdim t) (fun e =>
     kconj (nth c s k0 * V c d) * (nth c s k0 * V c e) * msum (pdims w) (fun j => ent w e j b * kconj (ent w d j b)))))%K).
  - apply bigsum_ext. intros b Hb. unfold egram. rewrite A3.
    transitivity (msum (pdims w) (fun j => bigsum (rdim t) (fun d => bigsum (rdim t) (fun e =>
      kconj (nth c s k0 * V c d) * (nth c s k0 * V c e) * (ent w e j b * kconj (ent w d j b)))))%K).
    + apply msum_ext. intros j Hj. rewrite (A5 c j b Hc Hj Hb), bigsum_conj, bigsum_mul. apply bigsum_ext. intros d Hd. apply bigsum_ext. intros e He.
      rewrite !(kconj_mul K). ring.
    + rewrite msum_bigsum_swap. apply bigsum_ext. intros d Hd. rewrite msum_bigsum_swap. apply bigsum_ext. intros e He. apply msum_mul_l.
  - rewrite bigsum_swap.
    transitivity (bigsum (rdim t) (fun d => nth c s k0 * nth c s k0 * (V c d * kconj (V c d)))%K).
    + apply bigsum_ext. intros d Hd. rewrite bigsum_swap. rewrite (bigsum_single _ d); [|exact Hd|].
      * rewrite bigsum_mul_l, (RI d d), delta_eq by lia. rewrite (kconj_mul K), (R11 c Hc). ring.
      * intros e He Hn. rewrite bigsum_mul_l, (RI e d), delta_neq by (auto; lia). ring.
    + rewrite bigsum_mul_l, R10, delta_eq by assumption. ring.
Qed.

Lemma step_same_cont (t w w' : nd K) k s u V : lt_ok t -> ldim w = rdim t -> rsplit t k s u V -> rexact t k s u V ->
  absorbs t w w' k (fun c d => nth c s k0 * V c d)%K -> same_cont t w u w'.
Proof.
  intros Ht El [R1 [R2 [R3 [R4 _]]]] Ex [A1 [A2 [A3 [A4 A5]]]]. apply (cont_left t w u w' (fun c d => nth c s k0 * V c d)%K); auto.
  - unfold same_pair. rewrite R4, A2. auto 10.
  - intros a i b Ha Hi Hb. rewrite (Ex a i b Ha Hi Hb), R4. apply bigsum_ext. intros c Hc. ring.
  - rewrite R4. exact A5.
Qed.

(** The overlap with any chain that continues with the new isometry. *)
Lemma ovl_step_r x1 t w x2 u w' zs l r k s V : Forall left_iso x1 -> bonds x1 l (ldim t) -> lt_ok t -> ldim w = rdim t ->
  rsplit t k s u V -> absorbs t w w' k (fun c d => nth c s k0 * V c d)%K ->
  ovl l r (x1 ++ t :: w :: x2) (x1 ++ u :: zs) = ovl l r (x1 ++ u :: w' :: x2) (x1 ++ u :: zs).
Proof.
  intros HL B Ht El [R1 [R2 [R3 [R4 [R5 [R6 [R7 [R8 [R9 [R10 [R11 R12]]]]]]]]]]] [A1 [A2 [A3 [A4 A5]]]].
  rewrite !(ovl_left x1 _ _ l (ldim t) r HL B).
  assert (Bu : bonds [u] (ldim t) k) by (cbn; auto).
  change (u :: w' :: x2) with ([u] ++ (w' :: x2)). change (u :: zs) with ([u] ++ zs) at 2.
  rewrite (ovl_left [u] (w' :: x2) zs (ldim t) k r) by (auto; exact Bu).
  unfold ovl.
  transitivity (bigsum r (fun b => bigsum k (fun c => bigsum (rdim t) (fun d => kconj (nth c s k0 * V c d) * gram (w :: x2) zs d c b b)))%K).
  - rewrite bigsum_swap. apply bigsum_ext. intros b Hb.
    transitivity (bigsum (ldim t) (fun a => bigsum (rdim t) (fun d => bigsum k (fun c => egram t u a a d c * gram (w :: x2) zs d c b b)))%K).
    + apply bigsum_ext. intros a Ha. rewrite gram_cons, R4. reflexivity.
    + rewrite bigsum_swap. rewrite (bigsum_swap k). apply bigsum_ext. intros d Hd. rewrite bigsum_swap. apply bigsum_ext. intros c Hc.
      rewrite bigsum_mul_r, R12 by assumption. reflexivity.
  - rewrite bigsum_swap. apply bigsum_ext. intros c Hc. apply bigsum_ext. intros b Hb. unfold gram. cbn [map]. rewrite A3.
    transitivity (msums (pdims w :: map pdims x2) (fun is => bigsum (rdim t) (fun d => kconj (nth c s k0 * V c d) * (kconj (amp (w :: x2) is d b) * amp zs is c b)))%K).
    + rewrite <- bigsum_msums_swap. apply bigsum_ext. intros d Hd. rewrite msums_mul_l. reflexivity.
    + apply msums_ext. intros is Hi. inversion Hi as [|j ? is' ? Hj Hi']; subst. cbn [amp]. rewrite A4.
      transitivity (kconj (bigsum (rdim t) (fun d => nth c s k0 * V c d * bigsum (rdim w) (fun b0 => ent w d j b0 * amp x2 is' b0 b))) * amp zs (j :: is') c b)%K.
      * rewrite bigsum_conj, <- bigsum_mul_r. apply bigsum_ext. intros d Hd. rewrite !(kconj_mul K). ring.
      * f_equal. f_equal.
        transitivity (bigsum (rdim w) (fun b0 => bigsum (rdim t) (fun d => nth c s k0 * V c d * ent w d j b0) * amp x2 is' b0 b))%K.
        { transitivity (bigsum (rdim t) (fun d => bigsum (rdim w) (fun b0 => nth c s k0 * V c d * ent w d j b0 * amp x2 is' b0 b)))%K.
          - apply bigsum_ext. intros d Hd. rewrite <- bigsum_mul_l. apply bigsum_ext. intros e He. ring.
          - rewrite bigsum_swap. apply bigsum_ext. intros e He. rewrite bigsum_mul_r. reflexivity. }
        apply bigsum_ext. intros e He. rewrite (A5 c j e Hc Hj He). reflexivity.
Qed.

Lemma csvd_r_step_spec l r rank relerr x1 t w x2 cl cr :
  chain_ok (x1 ++ t :: w :: x2) l r -> 0 < rank -> relerr_ok relerr -> (Z.of_nat (length x1) <= cl)%Z ->
  outc FS (csvd_r_step svd svdfunc rank relerr (mkLt (x1 ++ t :: w :: x2) cl cr) (Z.of_nat (length x1)))
    (fun p => exists u w' s k V, let sk := firstn k s in
       p = (mkLt (x1 ++ u :: w' :: x2) (Z.of_nat (length x1) + 1) (Z.max (Z.of_nat (length x1) + 2) cr), (s, k)) /\
       chain_ok (x1 ++ u :: w' :: x2) l r /\ same_pair t w u w' /\ k <= rank /\ k <= length s /\
       rsplit t k sk u V /\ absorbs t w w' k (fun c d => nth c sk k0 * V c d)%K /\
       (relerr_exact relerr -> rdim t <= rank -> rexact t k sk u V) /\
       match relerr with
       | None => k = length s
       | Some _ => abs2 t = bigsum (length s) (fun c => nth c s k0 * nth c s k0)%K
       end).
Proof.
  intros HC Hrk Hre Hcl. pose proof HC as [Hne [B P]]. pose proof (bonds_two _ _ _ _ _ _ B) as [B1 [Ht [Hu [El B2]]]].
  unfold pos in P. pose proof P as P'. apply Forall_app in P'. destruct P' as [P1 P']. inversion P' as [|? ? Pt P'']; subst. inversion P'' as [|? ? Pu P2]; subst. clear P' P''.
  unfold csvd_r_step, csvd_r_factor. cbn [lts]. rewrite pyget_at by reflexivity. cbn [bind].
  rewrite (shape_last_lt t Ht). cbn [bind]. rewrite (lmat_reshape t Ht Pt). cbn [bind].
  pose proof (lmat_is_mat t Ht Pt) as M. pose proof M as [_ [_ [Pm Pn]]].
  set (mm := ldim t * size (pdims t)) in *.
  assert (HS : outc FS (svd_site svd svdfunc rank relerr (lmat t))
    (fun f => let '(u, s, v, k) := f in
       k <= rank /\ k <= length s /\
       kept_factors (lmat t) mm (rdim t) k (take_cols k u) (firstn k s) (take_rows k v) /\
       (relerr_exact relerr -> Nat.min mm (rdim t) <= rank -> exact_factors (lmat t) mm (rdim t) k (take_cols k u) (firstn k s) (take_rows k v)) /\
       match relerr with
       | None => k = length s
       | Some _ => abs2 t = bigsum (length s) (fun c => nth c s k0 * nth c s k0)%K
       end)).
  { pose proof (svd_site_spec (lmat t) mm (rdim t) rank relerr M Hrk Hre) as HS. destruct relerr as [rk|].
    - cbn [svd_site] in *. pose proof (Hsvd mm (rdim t) (lmat t) M) as Hs. destruct (svd (lmat t)) as [[[u s] v]|e] eqn:E; cbn [bind] in *.
      + destruct HS as [[z [E1 HS]]|[E1 _]]; [|discriminate]. injection E1 as <-. apply outc_ok. destruct HS as [H1 [H2 [[H3 _] [H4 H5]]]].
        repeat (split; [assumption|]).
        destruct (svd_keep (lmat t) mm (rdim t) u s v (Nat.min mm (rdim t)) Hs ltac:(lia) (le_n _)) as [KF EF].
        destruct (rsplit_mk t _ _ _ _ Ht Pt KF) as [RS RE].
        rewrite (exact_abs2 t _ _ _ _ Ht RS (RE (EF ltac:(lia)))). rewrite H3. apply bigsum_ext. intros c Hc. rewrite nth_firstn by exact Hc. reflexivity.
      + destruct HS as [[z [E1 HS]]|HS]; [discriminate|]. right. exact HS.
    - eapply outc_weaken; [exact HS|auto|]. intros [[[u s] v] k] [H1 [H2 [H3 [H4 H5]]]]. repeat (split; [assumption|]). exact H3. }
  assert (E0 : forall A B C (f : A -> res B) (g : B -> res C) x, bind (bind x f) g = bind x (fun a => bind (f a) g)) by (intros; destruct x; reflexivity).
  rewrite E0. eapply outc_bind; [exact HS|]. clear HS. intros [[[u0 s] v] k] [H1 [H2 [KF [EF SS]]]]. cbn [bind].
  destruct (rsplit_mk t k _ _ _ Ht Pt KF) as [RS RE]. pose proof KF as [K1 [K2 [K3 [K4 [K5 [K6 [K7 _]]]]]]].
  set (sk := firstn k s) in *. set (U := take_cols k u0) in *. set (Vm := take_rows k v) in *.
  rewrite (removelast_shp t Ht). change ((ldim t :: pdims t) ++ [k]) with (ldim t :: pdims t ++ [k]).
  rewrite (zshape_reshape U (ldim t :: pdims t ++ [k])) by (rewrite K3, size_cons, size_app, size_single, size2; unfold mm; ring). cbn [bind].
  replace (Z.of_nat (length x1) + 1)%Z with (Z.of_nat (S (length x1))) by lia.
  replace (x1 ++ t :: w :: x2) with ((x1 ++ [t]) ++ w :: x2) at 1 by (rewrite <- app_assoc; reflexivity).
  rewrite pyget_at by (rewrite app_length; cbn; lia). cbn [bind].
  destruct (scale_rows_spec Vm sk k (rdim t) K5 K7) as [sv [E1 [S1 [W1 G1]]]]. rewrite E1. cbn [bind].
  destruct (split_left t w U sv k Ht Pt Hu Pu El K3 K4 S1 W1 K1) as [D1 [D2 [D3 [D4 [D5 [D6 D7]]]]]].
  rewrite D1. cbn [bind]. set (t' := reshape U (ldim t :: pdims t ++ [k])) in *. set (w' := matdot sv w) in *.
  pose proof D2 as [T1 [T2 [T3 [T4 [T5 [T6 T7]]]]]].
  rewrite update_two by (auto; congruence). cbn zeta. unfold upd_form. cbn [flag_is String.eqb Ascii.eqb Bool.eqb].
  replace (0 <=? cl - Z.of_nat (length x1))%Z with true by (symmetry; apply Z.leb_le; lia). cbn [andb fst snd bind].
  apply outc_ok. exists t', w', s, k, (fun c d => get Vm [c; d]). cbv zeta.
  split; [f_equal; f_equal; lia|]. split.
  { split; [intros E; apply app_eq_nil in E; destruct E; discriminate|]. split; [|apply Forall_app; split; [exact P1|constructor; [exact D4|constructor; [exact D5|exact P2]]]].
    apply bonds_two_mk; [rewrite T3; exact B1|exact T1|exact T2|congruence|rewrite T6; exact B2]. }
  split; [exact D2|]. split; [exact H1|]. split; [exact H2|]. split; [exact RS|]. split.
  { split; [exact T2|]. split; [congruence|]. split; [exact T7|]. split; [exact T6|]. intros c j b Hc Hj Hb. rewrite (D7 c j b Hc Hj Hb).
    apply bigsum_ext. intros d Hd. rewrite (G1 c d Hc Hd). reflexivity. }
  split; [intros Hx Hle; apply RE; apply EF; [exact Hx|lia]|exact SS].
Qed.

(** ** Schmidt decompositions *)
Lemma Forall2_one (A B : Type) (R : A -> B -> Prop) xs y : Forall2 R xs [y] -> exists x, xs = [x] /\ R x y.
Proof. intros H. inversion H as [|x ? xs' ? Hx H']; subst. inversion H'; subst. eauto. Qed.

(** Across the cut after site [j] the tensor is [sum_c U_c s_c V_c] with
    orthonormal [U] and [V]. *)
Definition schmidt (l r : nat) (ts : list (nd K)) (j : nat) (s : list K) : Prop :=
  exists (U : list (list nat) -> nat -> nat -> K) (V : nat -> list (list nat) -> nat -> K),
  (forall is1 is2 a b, Forall2 inr is1 (map pdims (firstn j ts)) -> Forall2 inr is2 (map pdims (skipn j ts)) -> a < l -> b < r ->
     amp ts (is1 ++ is2) a b = bigsum (length s) (fun c => U is1 a c * nth c s k0 * V c is2 b)%K) /\
  (forall c e, c < length s -> e < length s ->
     bigsum l (fun a => msums (map pdims (firstn j ts)) (fun is => kconj (U is a c) * U is a e)%K) = delta c e) /\
  (forall c e, c < length s -> e < length s ->
     bigsum r (fun b => msums (map pdims (skipn j ts)) (fun is => V c is b * kconj (V e is b))%K) = delta c e) /\
  (forall c, c < length s -> kconj (nth c s k0) = nth c s k0).

Lemma schmidt_ext l r ts us j s : map pdims us = map pdims ts ->
  (forall is a b, Forall2 inr is (map pdims ts) -> a < l -> b < r -> amp us is a b = amp ts is a b) ->
  schmidt l r ts j s -> schmidt l r us j s.
Proof.
  intros E HA [U [V [H1 [H2 [H3 H4]]]]]. exists U, V. rewrite <- !firstn_map, <- !skipn_map in *. rewrite E in *. repeat split; auto.
  intros is1 is2 a b I1 I2 Ha Hb. rewrite HA; auto. rewrite <- (firstn_skipn j (map pdims ts)). apply Forall2_app; assumption.
Qed.

Lemma schmidt_step x1 t w x2 u l r k s V : chain_ok (x1 ++ t :: w :: x2) l r -> Forall left_iso x1 -> Forall right_iso (w :: x2) ->
  rsplit t k s u V -> rexact t k s u V -> schmidt l r (x1 ++ t :: w :: x2) (S (length x1)) s.
Proof.
  intros [Hne [B P]] HL HR RS Ex. pose proof (bonds_two _ _ _ _ _ _ B) as [B1 [Ht [Hu [El B2]]]].
  pose proof RS as [R1 [R2 [R3 [R4 [R5 [R6 [R7 [R8 [R9 [R10 [R11 R12]]]]]]]]]]].
  assert (Bw : bonds (w :: x2) (rdim t) r) by (cbn [bonds]; auto).
  assert (Bu : bonds (x1 ++ [u]) l k) by (apply bonds_app; exists (ldim t); split; [exact B1|cbn; auto]).
  replace (x1 ++ t :: w :: x2) with ((x1 ++ [t]) ++ w :: x2) by (rewrite <- app_assoc; reflexivity).
  assert (Lx : length (x1 ++ [t]) = S (length x1)) by (rewrite app_length; cbn; lia).
  exists (fun is a c => amp (x1 ++ [u]) is a c), (fun c is b => bigsum (rdim t) (fun d => V c d * amp (w :: x2) is d b)%K).
  rewrite firstn_app, skipn_app, Lx, Nat.sub_diag, firstn_O, skipn_O, app_nil_r, firstn_all2, skipn_all2 by lia. cbn [app].
  assert (Ep : map pdims (x1 ++ [u]) = map pdims (x1 ++ [t])) by (rewrite !map_app; cbn [map]; rewrite R3; reflexivity).
  rewrite R6. repeat split; [| | |exact R11].
  - intros is1 is2 a b I1 I2 Ha Hb.
    assert (Bt : bonds (x1 ++ [t]) l (rdim t)) by (apply bonds_app; exists (ldim t); split; [exact B1|cbn; auto]).
    assert (L1 : length is1 = length (x1 ++ [t])) by (rewrite (Forall2_len _ _ _ _ _ I1), map_length; reflexivity).
    rewrite (amp_app (x1 ++ [t]) (w :: x2) is1 is2 a b l (rdim t)) by assumption.
    assert (EU : forall d, d < rdim t -> amp (x1 ++ [t]) is1 a d = bigsum k (fun c => amp (x1 ++ [u]) is1 a c * (nth c s k0 * V c d))%K).
    { intros d Hd. rewrite map_app in I1. apply Forall2_app_inv_r in I1. destruct I1 as [i1 [i2 [J1 [J2 ->]]]].
      apply Forall2_one in J2. destruct J2 as [i [-> Ji]].
      assert (L1' : length i1 = length x1) by (rewrite (Forall2_len _ _ _ _ _ J1), map_length; reflexivity).
      rewrite (amp_app x1 [t] i1 [i] a d l (ldim t)) by assumption.
      transitivity (bigsum (ldim t) (fun a0 => bigsum (rdim u) (fun c => amp x1 i1 a a0 * ent u a0 i c * (nth c s k0 * V c d)))%K).
      - apply bigsum_ext. intros a0 Ha0. cbn [amp]. rewrite (bigsum_single _ d) by (auto; intros; rewrite delta_neq by auto; ring).
        rewrite delta_eq, (Ex a0 i d Ha0 Ji Hd). rewrite R4. transitivity (amp x1 i1 a a0 * bigsum (rdim u) (fun c => ent u a0 i c * nth c s k0 * V c d))%K; [rewrite R4; ring|].
        rewrite R4, <- bigsum_mul_l. apply bigsum_ext. intros c Hc. ring.
      - rewrite bigsum_swap, R4. apply bigsum_ext. intros c Hc. rewrite bigsum_mul_r. f_equal.
        rewrite (amp_app x1 [u] i1 [i] a c l (ldim u)) by (try assumption; rewrite R2; assumption). rewrite R2. apply bigsum_ext. intros a0 Ha0. cbn [amp].
        rewrite (bigsum_single _ c) by (try (rewrite R4; exact Hc); intros; rewrite delta_neq by auto; ring). rewrite delta_eq. ring. }
    transitivity (bigsum (rdim t) (fun d => bigsum k (fun c => amp (x1 ++ [u]) is1 a c * (nth c s k0 * V c d) * amp (w :: x2) is2 d b))%K).
    + apply bigsum_ext. intros d Hd. rewrite (EU d Hd), bigsum_mul_r. reflexivity.
    + rewrite bigsum_swap. apply bigsum_ext. intros c Hc. rewrite <- bigsum_mul_l. apply bigsum_ext. intros d Hd. ring.
  - intros c e Hc He. rewrite <- Ep.
    assert (HLu : Forall left_iso (x1 ++ [u])) by (apply Forall_app; auto).
    pose proof (lgram_iso (x1 ++ [u]) [] [] l k c e HLu Bu) as G. rewrite app_nil_r in G. unfold gram at 1 in G. rewrite G.
    rewrite (bigsum_single _ c) by (auto; intros d Hd Hn; rewrite gram_nil, delta_neq by auto; ring). rewrite gram_nil, delta_eq. ring.
  - intros c e Hc He.
    transitivity (bigsum r (fun b => bigsum (rdim t) (fun d => bigsum (rdim t) (fun f => V c d * kconj (V e f) * gram (w :: x2) (w :: x2) f d b b)))%K).
    + apply bigsum_ext. intros b Hb.
      transitivity (msums (map pdims (w :: x2)) (fun is => bigsum (rdim t) (fun d => bigsum (rdim t) (fun f =>
         V c d * kconj (V e f) * (kconj (amp (w :: x2) is f b) * amp (w :: x2) is d b))))%K).
      * apply msums_ext. intros is Hi. rewrite bigsum_conj, bigsum_mul. apply bigsum_ext. intros d Hd. apply bigsum_ext. intros f Hf.
        rewrite (kconj_mul K). ring.
      * rewrite <- bigsum_msums_swap. apply bigsum_ext. intros d Hd. rewrite <- bigsum_msums_swap. apply bigsum_ext. intros f Hf. apply msums_mul_l.
    + rewrite bigsum_swap. rewrite <- (R10 c e Hc He). apply bigsum_ext. intros d Hd. rewrite bigsum_swap.
      rewrite (bigsum_single _ d); [|exact Hd|].
      * rewrite bigsum_mul_l, (rgram_iso (w :: x2) r (rdim t) d d HR Bw Hd Hd), delta_eq. ring.
      * intros f Hf Hn. rewrite bigsum_mul_l, (rgram_iso (w :: x2) r (rdim t) f d HR Bw Hf Hd), delta_neq by auto. ring.
Qed.

(** The sum of the squared Schmidt values is the squared norm. *)
Lemma schmidt_norm l r ts j s : schmidt l r ts j s -> ovl l r ts ts = bigsum (length s) (fun c => nth c s k0 * nth c s k0)%K.
Proof.
  intros [U [V [H1 [H2 [H3 H4]]]]]. unfold ovl, gram.
  rewrite <- (firstn_skipn j (map pdims ts)), firstn_map, skipn_map.
  set (p := map pdims (firstn j ts)) in *. set (q := map pdims (skipn j ts)) in *.
  transitivity (bigsum l (fun a => bigsum r (fun b => bigsum (length s) (fun c => bigsum (length s) (fun e =>
     kconj (nth c s k0) * nth e s k0 * (msums p (fun is => kconj (U is a c) * U is a e) * msums q (fun is => V e is b * kconj (V c is b)))))))%K).
  - apply bigsum_ext. intros a Ha. apply bigsum_ext. intros b Hb. rewrite msums_app.
    transitivity (msums p (fun is1 => msums q (fun is2 => bigsum (length s) (fun c => bigsum (length s) (fun e =>
       kconj (nth c s k0) * nth e s k0 * ((kconj (U is1 a c) * U is1 a e) * (V e is2 b * kconj (V c is2 b)))))))%K).
    + apply msums_ext. intros is1 I1. apply msums_ext. intros is2 I2. rewrite (H1 is1 is2 a b I1 I2 Ha Hb), bigsum_conj, bigsum_mul.
      apply bigsum_ext. intros c Hc. apply bigsum_ext. intros e He. rewrite !(kconj_mul K). ring.
    + rewrite (msums_ext p _ (fun is1 => bigsum (length s) (fun c => bigsum (length s) (fun e => kconj (nth c s k0) * nth e s k0 *
         ((kconj (U is1 a c) * U is1 a e) * msums q (fun is2 => V e is2 b * kconj (V c is2 b)))))))%K.
      * rewrite <- bigsum_msums_swap. apply bigsum_ext. intros c Hc. rewrite <- bigsum_msums_swap. apply bigsum_ext. intros e He.
        rewrite msums_mul_l. f_equal. rewrite msums_mul_r. reflexivity.
      * intros is1 I1. rewrite <- bigsum_msums_swap. apply bigsum_ext. intros c Hc. rewrite <- bigsum_msums_swap. apply bigsum_ext. intros e He.
        rewrite msums_mul_l. f_equal. apply msums_mul_l.
  - transitivity (bigsum (length s) (fun c => bigsum (length s) (fun e => kconj (nth c s k0) * nth e s k0 *
      (bigsum l (fun a => msums p (fun is => kconj (U is a c) * U is a e)) * bigsum r (fun b => msums q (fun is => V e is b * kconj (V c is b))))))%K).
    + rewrite (bigsum_ext l _ (fun a => bigsum (length s) (fun c => bigsum (length s) (fun e => kconj (nth c s k0) * nth e s k0 *
        (msums p (fun is => kconj (U is a c) * U is a e) * bigsum r (fun b => msums q (fun is => V e is b * kconj (V c is b)))))))%K).
      * rewrite bigsum_swap. apply bigsum_ext. intros c Hc. rewrite bigsum_swap. apply bigsum_ext. intros e He. rewrite bigsum_mul_l, bigsum_mul_r. reflexivity.
      * intros a Ha. rewrite bigsum_swap. apply bigsum_ext. intros c Hc. rewrite bigsum_swap. apply bigsum_ext. intros e He. rewrite !bigsum_mul_l. reflexivity.
    + apply bigsum_ext. intros c Hc. rewrite (bigsum_single _ c); [|exact Hc|].
      * rewrite H2, H3, delta_eq, (H4 c Hc) by assumption. ring.
      * intros e He Hn. rewrite H2, delta_neq by auto. ring.
Qed.

(** ** The loop of _compress_svd_r *)
(** Sum of the squares of the singular values dropped by one step. *)
Definition dweight (y : list K * nat) : K :=
  bigsum (length (fst y) - snd y) (fun c => nth (snd y + c) (fst y) k0 * nth (snd y + c) (fst y) k0)%K.
Definition dweights (ys : list (list K * nat)) : K := fold_right (fun y acc => kadd (dweight y) acc) k0 ys.

Lemma dweight_split s k : k <= length s ->
  bigsum (length s) (fun c => nth c s k0 * nth c s k0)%K =
  (bigsum k (fun c => nth c (firstn k s) k0 * nth c (firstn k s) k0) + dweight (s, k))%K.
Proof.
  intros H. unfold dweight. cbn [fst snd]. replace (length s) with (k + (length s - k)) at 1 by lia. rewrite bigsum_split. f_equal.
  apply bigsum_ext. intros c Hc. rewrite nth_firstn by exact Hc. reflexivity.
Qed.

Lemma seq_shift_Z (m n : nat) : map (fun k => Z.of_nat (m + k)) (seq 0 (S n)) = Z.of_nat m :: map (fun k => Z.of_nat (S m + k)) (seq 0 n).
Proof.
  cbn [seq map]. rewrite Nat.add_0_r. f_equal. rewrite <- seq_shift, map_map. apply map_ext. intros; lia.
Qed.

Lemma csvd_r_loop l r rank relerr : 0 < rank -> relerr_ok relerr -> forall n ys x1 t zs cl cr, length ys = n ->
  chain_ok (x1 ++ ys ++ t :: zs) l r -> Forall left_iso x1 -> (Z.of_nat (length x1) <= cl)%Z ->
  outc FS (csvd_loop (csvd_r_step svd svdfunc rank relerr) (map (fun k => Z.of_nat (length x1 + k)) (seq 0 n)) (mkLt (x1 ++ ys ++ t :: zs) cl cr))
    (fun p => exists us t' cl' cr',
       fst p = mkLt (x1 ++ us ++ t' :: zs) cl' cr' /\
       ((n = 0 -> t' = t) /\ cl' = if Nat.eqb n 0 then cl else Z.of_nat (length x1 + n)) /\
       (cr' = if Nat.eqb n 0 then cr else Z.max (Z.of_nat (length x1 + n + 1)) cr) /\
       length us = n /\ map pdims us = map pdims ys /\ pdims t' = pdims t /\ rdim t' = rdim t /\ Forall left_iso us /\
       chain_ok (x1 ++ us ++ t' :: zs) l r /\
       Forall2 le (map rdim us) (map rdim ys) /\ Forall (fun k => k <= rank) (map rdim us) /\ Forall tall us /\
       length (snd p) = n /\ map snd (snd p) = map rdim us /\
       ovl l r (x1 ++ ys ++ t :: zs) (x1 ++ us ++ t' :: zs) = ovl l r (x1 ++ us ++ t' :: zs) (x1 ++ us ++ t' :: zs) /\
       (relerr_exact relerr -> Forall (fun k => k <= rank) (map rdim ys) ->
          (forall is a b, Forall2 inr is (map pdims (x1 ++ ys ++ t :: zs)) -> a < l -> b < r ->
             amp (x1 ++ us ++ t' :: zs) is a b = amp (x1 ++ ys ++ t :: zs) is a b) /\
          (relerr = None -> Forall right_iso (tl (ys ++ t :: zs)) ->
             forall j, j < n -> schmidt l r (x1 ++ ys ++ t :: zs) (length x1 + S j) (fst (nth j (snd p) ([], 0))))) /\
       (relerr <> None -> Forall right_iso (tl (ys ++ t :: zs)) ->
          ovl l r (x1 ++ ys ++ t :: zs) (x1 ++ ys ++ t :: zs) = (ovl l r (x1 ++ us ++ t' :: zs) (x1 ++ us ++ t' :: zs) + dweights (snd p))%K)).
Proof.
  intros Hrk Hre. induction n as [|n IH]; intros ys x1 t zs cl cr Ln HC HL Hcl.
  { destruct ys; [|discriminate]. cbn [seq map csvd_loop]. apply outc_ok. exists [], t, cl, cr. cbn [fst snd app map length Nat.eqb].
    split; [reflexivity|]. split; [split; reflexivity|].
    repeat (split; [solve [reflexivity|assumption|constructor]|]). split.
    - intros _ _. split; [reflexivity|]. intros _ _ j Hj. lia.
    - intros _ _. cbn. ring. }
  assert (HX : exists w x2 ys1 t1, exists y, ys ++ t :: zs = y :: w :: x2 /\ ys1 ++ t1 :: zs = w :: x2 /\ length ys1 = n /\ ys ++ [t] = y :: ys1 ++ [t1] /\
     forall w', rdim w' = rdim w -> pdims w' = pdims w -> exists ys2 t2, ys2 ++ t2 :: zs = w' :: x2 /\ length ys2 = n /\ map pdims ys2 = map pdims ys1 /\
        map rdim ys2 = map rdim ys1 /\ pdims t2 = pdims t1 /\ rdim t2 = rdim t1 /\ tl (ys2 ++ t2 :: zs) = x2).
  { destruct ys as [|y [|w ys]]; [discriminate| |].
    - exists t, zs, [], t, y. cbn [app]. repeat (split; [reflexivity|]). split; [cbn in Ln; cbn; lia|]. split; [reflexivity|]. intros w' E1 E2. exists [], w'. cbn in *. auto 10 with arith.
    - exists w, (ys ++ t :: zs), (w :: ys), t, y. cbn [app]. repeat (split; [reflexivity|]). split; [cbn in *; lia|]. split; [reflexivity|]. intros w' E1 E2. exists (w' :: ys), t. cbn in *. rewrite E1, E2. auto 10 with arith. }
  destruct HX as [w [x2 [ys1 [t1 [y [E1 [E2 [L1 [E3 HX]]]]]]]]].
  assert (Ey : ys = y :: ys1 /\ t = t1) by (change (y :: ys1 ++ [t1]) with ((y :: ys1) ++ [t1]) in E3; apply app_inj_tail in E3; exact E3).
  destruct Ey as [-> <-]. rewrite E1 in *. rewrite seq_shift_Z. cbn [csvd_loop].
  eapply outc_bind; [exact (csvd_r_step_spec l r rank relerr x1 y w x2 cl cr HC Hrk Hre Hcl)|].
  intros p [u [w' [s [k [V H]]]]]. cbv zeta in H. destruct H as [-> [HC' [SP [Hk [Hks [RS [AB [EX SS]]]]]]]]. cbn [fst snd].
  pose proof SP as [S1 [S2 [S3 [S4 [S5 [S6 S7]]]]]]. pose proof RS as [R1 [R2 [R3 [R4 [R5 [R6 [R7 [R8 [R9 [R10 [R11 R12]]]]]]]]]]].
  pose proof HC as [Hne [B P]]. pose proof (bonds_two _ _ _ _ _ _ B) as [B1 [Hy [Hw [El B2]]]].
  destruct (HX w' S6 S7) as [ys2 [t2 [F1 [F2 [F3 [F4 [F5 [F6 F7]]]]]]]].
  assert (EA : forall v : list (nd K), x1 ++ u :: v = (x1 ++ [u]) ++ v) by (intros; rewrite <- app_assoc; reflexivity).
  assert (Lu : length (x1 ++ [u]) = Datatypes.S (length x1)) by (rewrite app_length; cbn; lia).
  assert (HLu : Forall left_iso (x1 ++ [u])) by (apply Forall_app; auto).
  rewrite (EA (w' :: x2)) in HC'. rewrite <- F1 in HC'. rewrite (EA (w' :: x2)), <- F1.
  specialize (IH ys2 (x1 ++ [u]) t2 zs (Z.of_nat (length x1) + 1)%Z (Z.max (Z.of_nat (length x1) + 2) cr) F2 HC' HLu ltac:(lia)). rewrite Lu in IH.
  eapply outc_bind; [exact IH|]. clear IH. intros [z yld] [us [t' [cl' [cr' [G1 [[_ G2] [G3 [G4 [G5 [G6 [G7 [G8 [G9 [G10 [G11 [G12 [G13 [G14 [G15 [G16 G17]]]]]]]]]]]]]]]]]]]].
  cbn [fst snd] in *. subst z. apply outc_ok. exists (u :: us), t', cl', cr'. cbn [fst snd app length map].
  rewrite <- !(EA (us ++ t' :: zs)) in G9, G15, G16, G17. rewrite <- !(EA (ys2 ++ t2 :: zs)) in G15, G16, G17.
  assert (HCu : chain_ok (x1 ++ u :: w' :: x2) l r) by (rewrite (EA (w' :: x2)), <- F1; exact HC').
  split; [rewrite <- app_assoc; reflexivity|]. split; [split; [discriminate|rewrite G2; destruct n; cbn [Nat.eqb]; lia]|]. split; [rewrite G3; destruct n; cbn [Nat.eqb]; lia|].
  split; [lia|]. split; [rewrite R3, G5, F3; reflexivity|]. split; [congruence|]. split; [congruence|]. split; [constructor; assumption|]. split; [exact G9|].
  split; [constructor; [lia|rewrite <- F4; exact G10]|]. split; [constructor; [lia|exact G11]|]. split; [constructor; assumption|]. split; [lia|]. split; [rewrite G14, R4; reflexivity|].
  assert (EV : forall v : list (nd K), (x1 ++ [u]) ++ ys2 ++ v = x1 ++ u :: ys2 ++ v) by (intros; rewrite <- app_assoc; reflexivity).
  rewrite F1 in *.
  split; [rewrite (ovl_step_r x1 y w x2 u w' (us ++ t' :: zs) l r k (firstn k s) V) by assumption; exact G15|]. split.
  - intros Hx Hr. apply Forall_cons_iff in Hr. destruct Hr as [Hr1 Hr2]. specialize (EX Hx Hr1).
    pose proof (step_same_cont y w w' _ _ _ _ Hy El RS EX AB) as SC. rewrite <- F4 in Hr2. destruct (G16 Hx Hr2) as [A1 A2].
    assert (AE : forall is a b, Forall2 inr is (map pdims (x1 ++ y :: w :: x2)) -> a < l -> b < r ->
       amp (x1 ++ u :: w' :: x2) is a b = amp (x1 ++ y :: w :: x2) is a b).
    { intros is a b Hi Ha Hb. apply (amp_around x1 x2 y w u w' l is a r); try assumption. exact (proj1 (proj2 HCu)). }
    assert (EM : map pdims (x1 ++ u :: w' :: x2) = map pdims (x1 ++ y :: w :: x2)) by (rewrite !map_app; cbn [map]; rewrite R3, S7; reflexivity).
    split.
    + intros is a b Hi Ha Hb. rewrite A1 by (try assumption; rewrite EM; exact Hi). apply AE; assumption.
    + intros HN HR. cbn [tl] in HR. intros [|j] Hj.
      * cbn [nth fst]. rewrite Nat.add_1_r. subst relerr. cbn in SS. subst k. rewrite firstn_all in *. exact (schmidt_step x1 y w x2 u l r _ s V HC HL HR RS EX).
      * cbn [nth]. assert (HR' : Forall right_iso (tl (w' :: x2))) by (cbn [tl]; inversion HR; assumption). specialize (A2 HN HR' j ltac:(lia)).
        replace (length x1 + Datatypes.S (Datatypes.S j)) with (Datatypes.S (length x1) + Datatypes.S j) by lia.
        eapply schmidt_ext; [symmetry; exact EM| |exact A2]. intros is a b Hi Ha Hb. symmetry. apply AE; [rewrite <- EM; exact Hi|assumption|assumption].
  - intros HN HR. cbn [tl] in HR. assert (HR' : Forall right_iso (tl (w' :: x2))) by (cbn [tl]; inversion HR; assumption). specialize (G17 HN HR').
    destruct relerr as [re|]; [|congruence]. cbn [dweights fold_right].
    rewrite (ovl_center x1 (w :: x2) y l r B HL HR), SS, (dweight_split s k Hks).
    rewrite <- (absorbs_abs2 y w w' k _ u V El ltac:(inversion HR; assumption) RS AB).
    assert (Bu : bonds ((x1 ++ [u]) ++ w' :: x2) l r) by (rewrite <- EA; exact (proj1 (proj2 HCu))).
    rewrite <- (ovl_center (x1 ++ [u]) x2 w' l r Bu HLu HR'). rewrite <- EA, G17. unfold dweights. ring.
Qed.

(** ** One step of _compress_svd_l *)
(** [t] is split into the matrix [U diag(s)] and the isometry [v]. *)
Definition lsplit (t : nd K) (k : nat) (s : list K) (v : nd K) (U : nat -> nat -> K) : Prop :=
  lt_ok v /\ ldim v = k /\ pdims v = pdims t /\ rdim v = rdim t /\ right_iso v /\ length s = k /\ 0 < k /\ k <= ldim t /\ wide v /\
  (forall c e, c < k -> e < k -> bigsum (ldim t) (fun d => kconj (U d c) * U d e)%K = delta c e) /\
  (forall c, c < k -> kconj (nth c s k0) = nth c s k0) /\
  (forall c d, c < k -> d < ldim t -> bigsum (rdim t) (fun b => egram t v d c b b) = kconj (U d c * nth c s k0)%K).
Definition lexact (t : nd K) (k : nat) (s : list K) (v : nd K) (U : nat -> nat -> K) : Prop :=
  forall d i b, d < ldim t -> inr i (pdims t) -> b < rdim t ->
    ent t d i b = bigsum k (fun c => U d c * nth c s k0 * ent v c i b)%K.

Lemma lsplit_mk (t : nd K) k U s V : lt_ok t -> 0 < size (shp t) ->
  kept_factors (rmat t) (ldim t) (size (pdims t) * rdim t) k U s V ->
  lsplit t k s (reshape V (k :: pdims t ++ [rdim t])) (fun d c => get U [d; c]) /\
  (exact_factors (rmat t) (ldim t) (size (pdims t) * rdim t) k U s V -> lexact t k s (reshape V (k :: pdims t ++ [rdim t])) (fun d c => get U [d; c])).
Proof.
  intros Ht Pt [K1 [K2 [K3 [K4 [K5 [K6 [K7 [K8 [K9 [K10 [K11 K12]]]]]]]]]]].
  destruct (rten_spec V (pdims t) (rdim t) k _ K5 K6 eq_refl) as [A1 [A2 [A3 [A4 [A5 [A6 A7]]]]]].
  split.
  - split; [exact A1|]. split; [exact A2|]. split; [exact A3|]. split; [exact A4|]. split; [apply A7; exact K9|]. split; [exact K7|].
    split; [exact K1|]. split; [lia|]. split; [unfold wide; rewrite A2, A3, A4; lia|]. split; [exact K8|]. split; [exact K10|].
    intros c d Hc Hd. rewrite <- (K12 d c Hd Hc). rewrite bigsum_conj, bigsum_right. apply bigsum_ext. intros b Hb. unfold egram.
    apply msum_ext. intros i Hi. rewrite (A6 c i b Hc Hi Hb), (get_rmat t d i b Ht Hd Hi Hb), (kconj_mul K), (kconj_invol K). ring.
  - intros Ex d i b Hd Hi Hb. rewrite <- (get_rmat t d i b Ht Hd Hi Hb).
    assert (Hr : ravel (pdims t ++ [rdim t]) (i ++ [b]) < size (pdims t) * rdim t).
    { rewrite <- (size_single (rdim t)) at 2. rewrite <- size_app. apply ravel_lt. apply inr_app; [exact Hi|apply inr_single; exact Hb]. }
    rewrite Ex by assumption. apply bigsum_ext. intros c Hc. rewrite (A6 c i b Hc Hi Hb). reflexivity.
Qed.

Lemma lexact_abs2 (t : nd K) k s v U : lt_ok t -> lsplit t k s v U -> lexact t k s v U ->
  abs2 t = bigsum k (fun c => nth c s k0 * nth c s k0)%K.
Proof.
  intros Ht [R1 [R2 [R3 [R4 [R5 [R6 [R7 [R8 [R9 [R10 [R11 R12]]]]]]]]]]] Ex. rewrite (abs2_ent t Ht).
  transitivity (bigsum (ldim t) (fun d => bigsum k (fun c => kconj (U d c * nth c s k0) * (U d c * nth c s k0)))%K).
  - apply bigsum_ext. intros d Hd.
    transitivity (bigsum (rdim t) (fun b => bigsum k (fun c => egram t v d c b b * (U d c * nth c s k0)))%K).
    + apply bigsum_ext. intros b Hb. unfold egram.
      transitivity (msum (pdims t) (fun i => bigsum k (fun c => kconj (ent t d i b) * ent v c i b * (U d c * nth c s k0)))%K).
      * apply msum_ext. intros i Hi. rewrite (Ex d i b Hd Hi Hb) at 2. rewrite <- bigsum_mul_l. apply bigsum_ext. intros c Hc. ring.
      * rewrite msum_bigsum_swap. apply bigsum_ext. intros c Hc. rewrite msum_mul_r. reflexivity.
    + rewrite bigsum_swap. apply bigsum_ext. intros c Hc. rewrite bigsum_mul_r, R12 by assumption. reflexivity.
  - rewrite bigsum_swap. apply bigsum_ext. intros c Hc.
    transitivity (bigsum (ldim t) (fun d => nth c s k0 * nth c s k0 * (kconj (U d c) * U d c))%K).
    + apply bigsum_ext. intros d Hd. rewrite (kconj_mul K), (R11 c Hc). ring.
    + rewrite bigsum_mul_l, R10, delta_eq by assumption. ring.
Qed.

Definition labsorbs (t w w' : nd K) (k : nat) (M : nat -> nat -> K) : Prop :=
  lt_ok w' /\ ldim w' = ldim w /\ pdims w' = pdims w /\ rdim w' = k /\
  forall a j c, a < ldim w -> inr j (pdims w) -> c < k -> ent w' a j c = bigsum (rdim w) (fun d => ent w a j d * M d c)%K.

Lemma labsorbs_abs2 (t w w' : nd K) k s v U : ldim t = rdim w -> left_iso w -> lsplit t k s v U ->
  labsorbs t w w' k (fun d c => U d c * nth c s k0)%K -> abs2 w' = bigsum k (fun c => nth c s k0 * nth c s k0)%K.
Proof.
  intros El LI [R1 [R2 [R3 [R4 [R5 [R6 [R7 [R8 [R9 [R10 [R11 R12]]]]]]]]]]] [A1 [A2 [A3 [A4 A5]]]]. rewrite (abs2_ent w' A1), A2, A4.
  rewrite bigsum_swap. apply bigsum_ext. intros c Hc.
  transitivity (bigsum (ldim w) (fun a => bigsum (rdim w) (fun d => bigsum (rdim w) (fun e =>
     kconj (U d c * nth c s k0) * (U e c * nth c s k0) * msum (pdims w) (fun j => kconj (ent w a j d) * ent w a j e))))%K).
  - apply bigsum_ext. intros a Ha. unfold egram. rewrite A3.
    transitivity (msum (pdims w) (fun j => bigsum (rdim w) (fun d => bigsum (rdim w) (fun e =>
      kconj (U d c * nth c s k0) * (U e c * nth c s k0) * (kconj (ent w a j d) * ent w a j e))))%K).
    + apply msum_ext. intros j Hj. rewrite (A5 a j c Ha Hj Hc), bigsum_conj, bigsum_mul. apply bigsum_ext. intros d Hd. apply bigsum_ext. intros e He.
      rewrite !(kconj_mul K). ring.
    + rewrite msum_bigsum_swap. apply bigsum_ext. intros d Hd. rewrite msum_bigsum_swap. apply bigsum_ext. intros e He. apply msum_mul_l.
  - rewrite bigsum_swap.
    transitivity (bigsum (rdim w) (fun d => nth c s k0 * nth c s k0 * (kconj (U d c) * U d c))%K).
    + apply bigsum_ext. intros d Hd. rewrite bigsum_swap. rewrite (bigsum_single _ d); [|exact Hd|].
      * rewrite bigsum_mul_l, (LI d d), delta_eq by lia. rewrite (kconj_mul K), (R11 c Hc). ring.
      * intros e He Hn. rewrite bigsum_mul_l, (LI d e), delta_neq by (auto; lia). ring.
    + rewrite bigsum_mul_l, <- El, R10, delta_eq by assumption. ring.
Qed.

Lemma lstep_same_cont (t w w' : nd K) k s v U : lt_ok t -> ldim t = rdim w -> lsplit t k s v U -> lexact t k s v U ->
  labsorbs t w w' k (fun d c => U d c * nth c s k0)%K -> same_cont w t w' v.
Proof.
  intros Ht El [R1 [R2 [R3 [R4 _]]]] Ex [A1 [A2 [A3 [A4 A5]]]]. apply (cont_right w t w' v (fun d c => U d c * nth c s k0)%K); auto.
  - unfold same_pair. rewrite R2, A4. auto 10.
  - intros a i b Ha Hi Hb. rewrite (Ex a i b Ha Hi Hb), A4. apply bigsum_ext. intros c Hc. ring.
  - rewrite A4. exact A5.
Qed.

Lemma ovl_step_l x1 w t x2 w' v pre l r k s U : Forall right_iso x2 -> bonds x1 l (ldim w) -> bonds x2 (rdim t) r -> lt_ok t -> lt_ok w -> ldim t = rdim w ->
  lsplit t k s v U -> labsorbs t w w' k (fun d c => U d c * nth c s k0)%K -> bonds pre l k -> map pdims pre = map pdims (x1 ++ [w]) ->
  ovl l r (x1 ++ w :: t :: x2) (pre ++ v :: x2) = ovl l r (x1 ++ w' :: v :: x2) (pre ++ v :: x2).
Proof.
  intros HR B1 B2 Ht Hw El [R1 [R2 [R3 [R4 [R5 [R6 [R7 [R8 [R9 [R10 [R11 R12]]]]]]]]]]] [A1 [A2 [A3 [A4 A5]]]] Bp Ep.
  assert (Bw : bonds (x1 ++ [w]) l (rdim w)) by (apply bonds_app; exists (ldim w); split; [exact B1|cbn; auto]).
  assert (Bw' : bonds (x1 ++ [w']) l k) by (apply bonds_app; exists (ldim w); split; [exact B1|cbn; auto]).
  assert (Bv : bonds (v :: x2) k r) by (cbn [bonds]; rewrite R4; auto).
  assert (Ep' : map pdims (x1 ++ [w']) = map pdims pre) by (rewrite Ep, !map_app; cbn [map]; rewrite A3; reflexivity).
  replace (x1 ++ w :: t :: x2) with ((x1 ++ [w]) ++ t :: x2) by (rewrite <- app_assoc; reflexivity).
  replace (x1 ++ w' :: v :: x2) with ((x1 ++ [w']) ++ v :: x2) by (rewrite <- app_assoc; reflexivity).
  unfold ovl. apply bigsum_ext. intros a Ha.
  transitivity (bigsum k (fun c => bigsum (rdim w) (fun d => kconj (U d c * nth c s k0) * gram (x1 ++ [w]) pre a a d c))%K).
  - transitivity (bigsum (rdim w) (fun d => bigsum k (fun c => gram (x1 ++ [w]) pre a a d c * bigsum r (fun b => gram (t :: x2) (v :: x2) d c b b)))%K).
    + transitivity (bigsum r (fun b => bigsum (rdim w) (fun d => bigsum k (fun c => gram (x1 ++ [w]) pre a a d c * gram (t :: x2) (v :: x2) d c b b)))%K).
      * apply bigsum_ext. intros b Hb. apply (gram_app (x1 ++ [w]) pre (t :: x2) (v :: x2) l (rdim w) l k); auto.
      * rewrite bigsum_swap. apply bigsum_ext. intros d Hd. rewrite bigsum_swap. apply bigsum_ext. intros c Hc. apply bigsum_mul_l.
    + rewrite bigsum_swap. apply bigsum_ext. intros c Hc. apply bigsum_ext. intros d Hd.
      change (t :: x2) with ([t] ++ x2). change (v :: x2) with ([v] ++ x2).
      rewrite (rgram_app x2 [t] [v] (ldim t) k (rdim t) r d c) by (auto; try lia; cbn; auto; rewrite R3; reflexivity).
      rewrite (bigsum_ext (rdim t) _ (fun b => egram t v d c b b)).
      * rewrite R12 by (auto; lia). ring.
      * intros b Hb. rewrite gram_cons, R4. rewrite (bigsum_single _ b) by (auto; intros e He Hn; apply bigsum_zero; intros e' _; rewrite gram_nil, delta_neq by auto; ring).
        rewrite (bigsum_single _ b) by (auto; intros e He Hn; rewrite gram_nil, (delta_neq e b) by auto; ring). rewrite gram_nil, !delta_eq. ring.
  - transitivity (bigsum k (fun c => gram (x1 ++ [w']) pre a a c c)).
    + apply bigsum_ext. intros c Hc. unfold gram. rewrite Ep', Ep.
      transitivity (msums (map pdims (x1 ++ [w])) (fun is => bigsum (rdim w) (fun d => kconj (U d c * nth c s k0) * (kconj (amp (x1 ++ [w]) is a d) * amp pre is a c)))%K).
      * rewrite <- bigsum_msums_swap. apply bigsum_ext. intros d Hd. rewrite msums_mul_l. reflexivity.
      * apply msums_ext. intros is Hi. rewrite map_app in Hi. apply Forall2_app_inv_r in Hi. destruct Hi as [i1 [i2 [J1 [J2 ->]]]].
        apply Forall2_one in J2. destruct J2 as [j [-> Jj]].
        assert (L1 : length i1 = length x1) by (rewrite (Forall2_len _ _ _ _ _ J1), map_length; reflexivity).
        assert (EA : amp (x1 ++ [w']) (i1 ++ [j]) a c = bigsum (rdim w) (fun d => U d c * nth c s k0 * amp (x1 ++ [w]) (i1 ++ [j]) a d)%K).
        { rewrite (amp_app x1 [w'] i1 [j] a c l (ldim w)) by assumption.
          transitivity (bigsum (ldim w) (fun a0 => bigsum (rdim w) (fun d => amp x1 i1 a a0 * (ent w a0 j d * (U d c * nth c s k0)))))%K.
          - apply bigsum_ext. intros a0 Ha0. cbn [amp]. rewrite A4. rewrite (bigsum_single _ c) by (auto; intros; rewrite delta_neq by auto; ring).
            rewrite delta_eq, (A5 a0 j c Ha0 Jj Hc), bigsum_mul_l. ring.
          - rewrite bigsum_swap. apply bigsum_ext. intros d Hd. rewrite (amp_app x1 [w] i1 [j] a d l (ldim w)) by assumption.
            rewrite <- bigsum_mul_l. apply bigsum_ext. intros a0 Ha0. cbn [amp]. rewrite (bigsum_single _ d) by (auto; intros; rewrite delta_neq by auto; ring).
            rewrite delta_eq. ring. }
        rewrite EA, bigsum_conj, <- bigsum_mul_r. apply bigsum_ext. intros d Hd. rewrite !(kconj_mul K). ring.
    + symmetry. apply (rgram_app (v :: x2) (x1 ++ [w']) pre l l k r a a); auto.
Qed.

Lemma csvd_l_step_spec l r rank relerr x1 w t x2 cl cr :
  chain_ok (x1 ++ w :: t :: x2) l r -> 0 < rank -> relerr_ok relerr -> (cr <= Z.of_nat (length x1) + 2)%Z ->
  outc FS (csvd_l_step svd svdfunc rank relerr (mkLt (x1 ++ w :: t :: x2) cl cr) (Z.of_nat (length x1) + 1))
    (fun p => exists w' v s k U, let sk := firstn k s in
       p = (mkLt (x1 ++ w' :: v :: x2) (Z.min (Z.of_nat (length x1)) cl) (Z.of_nat (length x1) + 1), (s, k)) /\
       chain_ok (x1 ++ w' :: v :: x2) l r /\ same_pair w t w' v /\ k <= rank /\ k <= length s /\
       lsplit t k sk v U /\ labsorbs t w w' k (fun d c => U d c * nth c sk k0)%K /\
       (relerr_exact relerr -> ldim t <= rank -> lexact t k sk v U) /\
       match relerr with
       | None => k = length s
       | Some _ => abs2 t = bigsum (length s) (fun c => nth c s k0 * nth c s k0)%K
       end).
Proof.
  intros HC Hrk Hre Hcr. pose proof HC as [Hne [B P]]. pose proof (bonds_two _ _ _ _ _ _ B) as [B1 [Hw [Ht [El B2]]]].
  unfold pos in P. pose proof P as P'. apply Forall_app in P'. destruct P' as [P1 P']. inversion P' as [|? ? Pw P'']; subst. inversion P'' as [|? ? Pt P2]; subst. clear P' P''.
  unfold csvd_l_step. cbn [lts].
  replace (Z.of_nat (length x1) + 1)%Z with (Z.of_nat (S (length x1))) by lia.
  replace (x1 ++ w :: t :: x2) with ((x1 ++ [w]) ++ t :: x2) at 1 by (rewrite <- app_assoc; reflexivity).
  rewrite pyget_at by (rewrite app_length; cbn; lia). cbn [bind].
  rewrite (shape0_lt t Ht). cbn [bind]. rewrite (rmat_reshape t Ht Pt). cbn [bind].
  pose proof (rmat_is_mat t Ht Pt) as M. pose proof M as [_ [_ [Pm Pn]]].
  set (nn := size (pdims t) * rdim t) in *.
  assert (HS : outc FS (svd_site svd svdfunc rank relerr (rmat t))
    (fun f => let '(u, s, v, k) := f in
       k <= rank /\ k <= length s /\
       kept_factors (rmat t) (ldim t) nn k (take_cols k u) (firstn k s) (take_rows k v) /\
       (relerr_exact relerr -> Nat.min (ldim t) nn <= rank -> exact_factors (rmat t) (ldim t) nn k (take_cols k u) (firstn k s) (take_rows k v)) /\
       match relerr with
       | None => k = length s
       | Some _ => abs2 t = bigsum (length s) (fun c => nth c s k0 * nth c s k0)%K
       end)).
  { pose proof (svd_site_spec (rmat t) (ldim t) nn rank relerr M Hrk Hre) as HS. destruct relerr as [rk|].
    - cbn [svd_site] in *. pose proof (Hsvd (ldim t) nn (rmat t) M) as Hs. destruct (svd (rmat t)) as [[[u s] v]|e] eqn:E; cbn [bind] in *.
      + destruct HS as [[z [E1 HS]]|[E1 _]]; [|discriminate]. injection E1 as <-. apply outc_ok. destruct HS as [H1 [H2 [[H3 _] [H4 H5]]]].
        repeat (split; [assumption|]).
        destruct (svd_keep (rmat t) (ldim t) nn u s v (Nat.min (ldim t) nn) Hs ltac:(lia) (le_n _)) as [KF EF].
        destruct (lsplit_mk t _ _ _ _ Ht Pt KF) as [RS RE].
        rewrite (lexact_abs2 t _ _ _ _ Ht RS (RE (EF ltac:(lia)))). rewrite H3. apply bigsum_ext. intros c Hc. rewrite nth_firstn by exact Hc. reflexivity.
      + destruct HS as [[z [E1 HS]]|HS]; [discriminate|]. right. exact HS.
    - eapply outc_weaken; [exact HS|auto|]. intros [[[u s] v] k] [H1 [H2 [H3 [H4 H5]]]]. repeat (split; [assumption|]). exact H3. }
  eapply outc_bind; [exact HS|]. clear HS. intros [[[u0 s] v] k] [H1 [H2 [KF [EF SS]]]]. cbn [bind].
  destruct (lsplit_mk t k _ _ _ Ht Pt KF) as [RS RE]. pose proof KF as [K1 [K2 [K3 [K4 [K5 [K6 [K7 _]]]]]]].
  set (sk := firstn k s) in *. set (U := take_cols k u0) in *. set (Vm := take_rows k v) in *.
  replace (Z.of_nat (S (length x1)) - 1)%Z with (Z.of_nat (length x1)) by lia.
  rewrite pyget_at by reflexivity. cbn [bind].
  destruct (scale_cols_spec U sk (ldim t) k K3 K7) as [us [E1 [S1 [W1 G1]]]]. rewrite E1. cbn [bind]. rewrite El in S1.
  destruct (split_right w t Vm us k Hw Pw Ht Pt El K5 K6 S1 W1 K1) as [D1 [D2 [D3 [D4 [D5 [D6 D7]]]]]].
  rewrite D1. cbn [bind]. rewrite (tl_shp t Ht).
  rewrite (zshape_reshape Vm (k :: pdims t ++ [rdim t])) by (rewrite K5, size_cons, size_app, size_single, size2; unfold nn; ring). cbn [bind].
  set (w' := matdot w us) in *. set (v' := reshape Vm (k :: pdims t ++ [rdim t])) in *.
  pose proof D2 as [T1 [T2 [T3 [T4 [T5 [T6 T7]]]]]].
  replace (Z.of_nat (S (length x1)) + 1)%Z with (Z.of_nat (length x1) + 2)%Z by lia.
  rewrite update_two by (auto; congruence). cbn zeta. unfold upd_form. cbn [flag_is String.eqb Ascii.eqb Bool.eqb]. cbn [andb fst snd].
  replace (-1 <=? Z.of_nat (length x1) + 1 - Z.max (Z.of_nat (length x1) + 1) cr)%Z with true by (symmetry; apply Z.leb_le; lia). cbn [fst snd bind].
  apply outc_ok. exists w', v', s, k, (fun d c => get U [d; c]). cbv zeta.
  split; [f_equal; f_equal; lia|]. split.
  { split; [intros E; apply app_eq_nil in E; destruct E; discriminate|]. split; [|apply Forall_app; split; [exact P1|constructor; [exact D4|constructor; [exact D5|exact P2]]]].
    apply bonds_two_mk; [rewrite T3; exact B1|exact T1|exact T2|congruence|rewrite T6; exact B2]. }
  split; [exact D2|]. split; [exact H1|]. split; [exact H2|]. split; [exact RS|]. split.
  { split; [exact T1|]. split; [exact T3|]. split; [exact T4|]. split; [exact D3|]. intros a j c Ha Hj Hc. rewrite (D7 a j c Ha Hj Hc).
    apply bigsum_ext. intros d Hd. rewrite (G1 d c) by lia. reflexivity. }
  split; [intros Hx Hle; apply RE; apply EF; [exact Hx|lia]|exact SS].
Qed.

Lemma seq_down_Z (m n : nat) : map (fun k => Z.of_nat (m + S n - k)) (seq 0 (S n)) = (Z.of_nat (m + n) + 1)%Z :: map (fun k => Z.of_nat (m + n - k)) (seq 0 n).
Proof.
  cbn [seq map]. f_equal; [lia|]. rewrite <- seq_shift, map_map. apply map_ext_in. intros k Hk. apply in_seq in Hk. lia.
Qed.

Lemma csvd_l_loop l r rank relerr : 0 < rank -> relerr_ok relerr -> forall n zs t ys x2 cl cr, length ys = n ->
  chain_ok ((zs ++ t :: ys) ++ x2) l r -> Forall right_iso x2 -> (cr <= Z.of_nat (length zs + n + 1))%Z ->
  outc FS (csvd_loop (csvd_l_step svd svdfunc rank relerr) (map (fun k => Z.of_nat (length zs + n - k)) (seq 0 n)) (mkLt ((zs ++ t :: ys) ++ x2) cl cr))
    (fun p => exists t' us cl' cr',
       fst p = mkLt ((zs ++ t' :: us) ++ x2) cl' cr' /\
       (cl' = if Nat.eqb n 0 then cl else Z.min (Z.of_nat (length zs)) cl) /\
       (cr' = if Nat.eqb n 0 then cr else Z.of_nat (length zs + 1)) /\
       length us = n /\ map pdims us = map pdims ys /\ pdims t' = pdims t /\ ldim t' = ldim t /\ Forall right_iso us /\
       chain_ok ((zs ++ t' :: us) ++ x2) l r /\
       Forall2 le (map ldim us) (map ldim ys) /\ Forall (fun k => k <= rank) (map ldim us) /\ Forall wide us /\
       length (snd p) = n /\ map snd (snd p) = rev (map ldim us) /\
       ovl l r ((zs ++ t :: ys) ++ x2) ((zs ++ t' :: us) ++ x2) = ovl l r ((zs ++ t' :: us) ++ x2) ((zs ++ t' :: us) ++ x2) /\
       (relerr_exact relerr -> Forall (fun k => k <= rank) (map ldim ys) ->
          forall is a b, Forall2 inr is (map pdims ((zs ++ t :: ys) ++ x2)) -> a < l -> b < r ->
             amp ((zs ++ t' :: us) ++ x2) is a b = amp ((zs ++ t :: ys) ++ x2) is a b) /\
       (relerr <> None -> Forall left_iso (removelast (zs ++ t :: ys)) ->
          ovl l r ((zs ++ t :: ys) ++ x2) ((zs ++ t :: ys) ++ x2) = (ovl l r ((zs ++ t' :: us) ++ x2) ((zs ++ t' :: us) ++ x2) + dweights (snd p))%K)).
Proof.
  intros Hrk Hre. induction n as [|n IH]; intros zs t ys x2 cl cr Ln HC HR Hcr.
  { destruct ys; [|discriminate]. cbn [seq map csvd_loop]. apply outc_ok. exists t, [], cl, cr. cbn [fst snd map length Nat.eqb].
    repeat (split; [solve [reflexivity|assumption|constructor]|]).
    intros _ _. cbn. ring. }
  assert (HX : exists X1 w ys1 y, ys = ys1 ++ [y] /\ zs ++ t :: ys1 = X1 ++ [w] /\ length ys1 = n /\
     forall w', ldim w' = ldim w -> pdims w' = pdims w -> exists t2 ys2, zs ++ t2 :: ys2 = X1 ++ [w'] /\ length ys2 = n /\ map pdims ys2 = map pdims ys1 /\
        map ldim ys2 = map ldim ys1 /\ pdims t2 = pdims t /\ ldim t2 = ldim t).
  { destruct (exists_last (l := ys)) as [ys1 [y ->]]; [intros ->; discriminate|]. rewrite app_length in Ln. cbn in Ln.
    destruct ys1 as [|y1 ys1'].
    - exists zs, t, [], y. split; [reflexivity|]. split; [reflexivity|]. split; [cbn in *; lia|]. intros w' E1 E2. exists w', []. cbn in *. auto 10 with arith.
    - destruct (exists_last (l := y1 :: ys1')) as [ys3 [w Ew]]; [discriminate|]. rewrite Ew in *. exists (zs ++ t :: ys3), w, (ys3 ++ [w]), y.
      split; [reflexivity|]. split; [rewrite <- app_assoc; reflexivity|]. rewrite app_length in *. cbn in Ln |- *. split; [lia|].
      intros w' E1 E2. exists t, (ys3 ++ [w']). rewrite <- app_assoc, app_length, !map_app. cbn [map length app]. rewrite E1, E2. repeat split; try reflexivity; lia. }
  destruct HX as [X1 [w [ys1 [y [-> [E2 [L1 HX]]]]]]].
  assert (EZ : (zs ++ t :: ys1 ++ [y]) ++ x2 = X1 ++ w :: y :: x2).
  { change (t :: ys1 ++ [y]) with ((t :: ys1) ++ [y]). rewrite app_assoc, E2, <- !app_assoc. reflexivity. }
  assert (LX : length X1 = length zs + n) by (apply (f_equal (@length _)) in E2; rewrite !app_length in E2; cbn in E2; lia).
  rewrite EZ in *. rewrite seq_down_Z, <- LX. cbn [csvd_loop].
  eapply outc_bind; [exact (csvd_l_step_spec l r rank relerr X1 w y x2 cl cr HC Hrk Hre ltac:(lia))|].
  intros p [w' [v [s [k [U H]]]]]. cbv zeta in H. destruct H as [-> [HC' [SP [Hk [Hks [RS [AB [EX SS]]]]]]]]. cbn [fst snd].
  pose proof SP as [S1 [S2 [S3 [S4 [S5 [S6 S7]]]]]]. pose proof RS as [R1 [R2 [R3 [R4 [R5 [R6 [R7 [R8 [R9 [R10 [R11 R12]]]]]]]]]]].
  pose proof HC as [Hne [B P]]. pose proof (bonds_two _ _ _ _ _ _ B) as [B1 [Hw [Hy [El B2]]]].
  destruct (HX w' S3 S4) as [t2 [ys2 [F1 [F2 [F3 [F4 [F5 F6]]]]]]].
  assert (EV : X1 ++ w' :: v :: x2 = (zs ++ t2 :: ys2) ++ v :: x2) by (rewrite F1, <- app_assoc; reflexivity).
  assert (HRv : Forall right_iso (v :: x2)) by (constructor; assumption).
  pose proof HC' as HCu. rewrite EV in HC'. rewrite EV.
  specialize (IH zs t2 ys2 (v :: x2) (Z.min (Z.of_nat (length X1)) cl) (Z.of_nat (length X1) + 1)%Z F2 HC' HRv ltac:(lia)). rewrite <- LX in IH.
  eapply outc_bind; [exact IH|]. clear IH. intros [z yld] [t' [us [cl' [cr' [G1 [G2 [G3 [G4 [G5 [G6 [G7 [G8 [G9 [G10 [G11 [G12 [G13 [G14 [G15 [G16 G17]]]]]]]]]]]]]]]]]]]].
  cbn [fst snd] in *. subst z. apply outc_ok. exists t', (us ++ [v]), cl', cr'. cbn [fst snd].
  assert (EW : (zs ++ t' :: us ++ [v]) ++ x2 = (zs ++ t' :: us) ++ v :: x2) by (change (t' :: us ++ [v]) with ((t' :: us) ++ [v]); rewrite app_assoc, <- app_assoc; reflexivity).
  rewrite EW. rewrite <- EV in G15, G16, G17.
  split; [reflexivity|]. split; [rewrite G2; destruct n; cbn [Nat.eqb]; lia|]. split; [rewrite G3; destruct n; cbn [Nat.eqb]; lia|].
  rewrite !app_length, !map_app. cbn [length map].
  split; [lia|]. split; [rewrite R3, G5, F3; reflexivity|]. split; [congruence|]. split; [congruence|].
  split; [apply Forall_app; auto|]. split; [exact G9|].
  split; [apply Forall2_app; [rewrite <- F4; exact G10|constructor; [lia|constructor]]|].
  split; [apply Forall_app; split; [exact G11|constructor; [lia|constructor]]|].
  split; [apply Forall_app; auto|]. split; [lia|]. split; [rewrite rev_app_distr, G14, R2; reflexivity|].
  assert (Bp : bonds (zs ++ t' :: us) l k).
  { destruct G9 as [_ [G9 _]]. apply bonds_app in G9. destruct G9 as [m [Q1 Q2]]. cbn [bonds] in Q2. destruct Q2 as [_ [Q2 _]]. congruence. }
  assert (Ep : map pdims (zs ++ t' :: us) = map pdims (X1 ++ [w])) by (rewrite <- E2, !map_app; cbn [map]; rewrite G6, F5, G5, F3; reflexivity).
  split; [rewrite (ovl_step_l X1 w y x2 w' v (zs ++ t' :: us) l r k (firstn k s) U) by assumption; exact G15|]. split.
  - intros Hx Hr. apply Forall_app in Hr. destruct Hr as [Hr1 Hr2]. apply Forall_cons_iff in Hr2. destruct Hr2 as [Hr2 _]. specialize (EX Hx Hr2).
    pose proof (lstep_same_cont y w w' _ _ _ _ Hy El RS EX AB) as SC. rewrite <- F4 in Hr1. specialize (G16 Hx Hr1).
    assert (AE : forall is a b, Forall2 inr is (map pdims (X1 ++ w :: y :: x2)) -> a < l -> b < r ->
       amp (X1 ++ w' :: v :: x2) is a b = amp (X1 ++ w :: y :: x2) is a b).
    { intros is a b Hi Ha Hb. apply (amp_around X1 x2 w y w' v l is a r); try assumption. exact (proj1 (proj2 HCu)). }
    assert (EM : map pdims (X1 ++ w' :: v :: x2) = map pdims (X1 ++ w :: y :: x2)) by (rewrite !map_app; cbn [map]; rewrite R3, S4; reflexivity).
    intros is a b Hi0 Ha Hb. assert (Hi : Forall2 inr is (map pdims (X1 ++ w :: y :: x2))) by (rewrite map_app; exact Hi0). rewrite G16 by (try assumption; rewrite EM; exact Hi). apply AE; assumption.
  - intros HN HL.
    assert (EL : removelast (zs ++ t :: ys1 ++ [y]) = X1 ++ [w]).
    { change (t :: ys1 ++ [y]) with ((t :: ys1) ++ [y]). rewrite app_assoc, removelast_last. exact E2. }
    rewrite EL in HL. pose proof HL as HL0. apply Forall_app in HL. destruct HL as [HL1 HL2]. apply Forall_cons_iff in HL2. destruct HL2 as [HL2 _].
    assert (HL' : Forall left_iso (removelast (zs ++ t2 :: ys2))) by (rewrite F1, removelast_last; exact HL1).
    specialize (G17 HN HL'). destruct relerr as [re|]; [|congruence]. cbn [dweights fold_right].
    assert (Bc : bonds ((X1 ++ [w]) ++ y :: x2) l r) by (rewrite <- app_assoc; exact B).
    replace (X1 ++ w :: y :: x2) with ((X1 ++ [w]) ++ y :: x2) by (rewrite <- app_assoc; reflexivity).
    rewrite (ovl_center (X1 ++ [w]) x2 y l r Bc HL0 HR), SS, (dweight_split s k Hks).
    rewrite <- (labsorbs_abs2 y w w' k _ v U El HL2 RS AB).
    rewrite <- (ovl_center X1 (v :: x2) w' l r (proj1 (proj2 HCu)) HL1 HRv), G17. unfold dweights. ring.
Qed.

(** ** The sweeps *)
(** [z] is an SVD compression of [x] with bonds bounded by [rank]. *)
Definition compressed (l r rank : nat) (x z : ltens K) : Prop :=
  chain_ok (lts z) l r /\ mshape z = mshape x /\ Forall2 le (ranks z) (ranks x) /\ Forall (fun k => k <= rank) (ranks z) /\
  canon_true z /\ canon_dims z /\ ovl l r (lts x) (lts z) = ovl l r (lts z) (lts z).
Definition same_amps (l r : nat) (x z : ltens K) : Prop :=
  forall is a b, Forall2 inr is (mshape x) -> a < l -> b < r -> amp (lts z) is a b = amp (lts x) is a b.

Lemma bonds_rdims (ts : list (nd K)) t zs l r : bonds (ts ++ t :: zs) l r -> zs = [] -> map rdim ts = map ldim (tl (ts ++ [t])).
Proof.
  intros B ->. revert l B. induction ts as [|u ts IH]; intros l B; [reflexivity|]. cbn [app tl map] in *. destruct B as [H1 [H2 B]].
  destruct ts as [|v ts].
  - cbn in *. destruct B as [_ [E _]]. congruence.
  - pose proof (IH _ B) as E1. cbn [map app tl] in *. rewrite E1. destruct B as [_ [E _]]. congruence.
Qed.

Lemma compress_svd_r_spec l r rank relerr x : chain_ok (lts x) l r -> 2 <= llen x -> 0 < rank -> relerr_ok relerr ->
  (0 <= lcan x)%Z -> (rcan x <= Z.of_nat (llen x))%Z ->
  outc FS (compress_svd_r svd svdfunc x rank relerr)
    (fun p => let '(z, ys, ov) := p in
       compressed l r rank x z /\ ov = ovl l r (lts z) (lts z) /\
       lcan z = (Z.of_nat (llen x) - 1)%Z /\ rcan z = Z.of_nat (llen x) /\
       length ys = llen x - 1 /\ map snd ys = ranks z /\
       (relerr_exact relerr -> Forall (fun k => k <= rank) (ranks x) -> same_amps l r x z /\
          (relerr = None -> Forall right_iso (tl (lts x)) -> forall j, j < llen x - 1 -> schmidt l r (lts x) (S j) (fst (nth j ys ([], 0))))) /\
       (relerr <> None -> Forall right_iso (tl (lts x)) -> ovl l r (lts x) (lts x) = (ovl l r (lts z) (lts z) + dweights ys)%K)).
Proof.
  intros HC Hn Hrk Hre Hl Hr. unfold compress_svd_r. destruct (Nat.ltb_spec 0 rank); [|lia]. cbn [passert].
  destruct x as [ts cl cr]. unfold llen in *. cbn [lts lcan rcan] in *.
  destruct (exists_last (l := ts)) as [ys [t ->]]; [intros ->; cbn in Hn; lia|]. rewrite app_length in Hn, Hr. cbn [length] in Hn, Hr.
  rewrite pyrange_up by (rewrite app_length; cbn [length]; lia).
  replace (Z.to_nat (Z.of_nat (length (ys ++ [t])) - 1 - 0)) with (length ys) by (rewrite app_length; cbn; lia).
  rewrite (map_ext (fun k => (0 + Z.of_nat k)%Z) (fun k => Z.of_nat (@length (nd K) [] + k))) by reflexivity.
  eapply outc_bind; [exact (csvd_r_loop l r rank relerr Hrk Hre (length ys) ys [] t [] cl cr eq_refl HC (Forall_nil _) ltac:(cbn; lia))|].
  intros [z yl] [us [t' [cl' [cr' [G1 [[_ G2] [G3 [G4 [G5 [G6 [G7 [G8 [G9 [G10 [G11 [G12 [G13 [G14 [G15 [G16 G17]]]]]]]]]]]]]]]]]]]].
  cbn [fst snd app] in *. subst z. cbn [lts].
  assert (Hus : us ++ [t'] <> []) by (intros E; apply app_eq_nil in E; destruct E; discriminate).
  rewrite (pyget_last_at _ _ dummy Hus). cbn [bind]. apply outc_ok.
  assert (En : nth (length (us ++ [t']) - 1) (us ++ [t']) dummy = t') by (rewrite app_length; cbn; replace (length us + 1 - 1) with (length us) by lia; apply nth_middle).
  rewrite En. pose proof (bonds_rdims us t' [] l r (proj1 (proj2 G9)) eq_refl) as Eu.
  pose proof (bonds_rdims ys t [] l r (proj1 (proj2 HC)) eq_refl) as Ey.
  rewrite Eu in G10, G11, G14. rewrite Ey in G10, G16. rewrite app_length. cbn [length].
  destruct (length ys) as [|n] eqn:Ln; [lia|]. cbn [Nat.eqb] in G2, G3. cbn [length] in G2, G3.
  assert (Lz : length (us ++ [t']) = S n + 1) by (rewrite app_length, G4; reflexivity).
  assert (RG : forall P Q : nd K -> Prop, Forall P us -> regions P Q (mkLt (us ++ [t']) cl' cr')).
  { intros P Q HP. split; unfold llen; cbn [lts lcan rcan].
    - intros k Hk _. rewrite app_nth1 by lia. rewrite Forall_forall in HP. apply HP, nth_In. lia.
    - intros k Hk Hk2. rewrite Lz in Hk2. lia. }
  split.
  { split; [exact G9|]. split; [unfold mshape; cbn [lts]; rewrite !map_app; cbn [map]; rewrite G5, G6; reflexivity|].
    split; [exact G10|]. split; [exact G11|]. split; [apply RG; exact G8|]. split; [apply RG; exact G12|exact G15]. }
  split; [symmetry; apply (ovl_center us [] t' l r); [exact (proj1 (proj2 G9))|exact G8|constructor]|].
  cbn [lcan rcan]. split; [rewrite G2; lia|]. split; [rewrite G3; lia|]. split; [lia|]. split; [exact G14|].
  split; [|exact G17].
  intros Hx Hle. destruct (G16 Hx Hle) as [A1 A2]. split; [exact A1|]. intros HN HR j Hj. apply (A2 HN HR). lia.
Qed.

Lemma compress_svd_l_spec l r rank relerr x : chain_ok (lts x) l r -> 2 <= llen x -> 0 < rank -> relerr_ok relerr ->
  (0 <= lcan x)%Z -> (rcan x <= Z.of_nat (llen x))%Z ->
  outc FS (compress_svd_l svd svdfunc x rank relerr)
    (fun p => let '(z, ys, ov) := p in
       compressed l r rank x z /\ ov = ovl l r (lts z) (lts z) /\
       lcan z = 0%Z /\ rcan z = 1%Z /\ length ys = llen x - 1 /\ map snd ys = rev (ranks z) /\
       (relerr_exact relerr -> Forall (fun k => k <= rank) (ranks x) -> same_amps l r x z) /\
       (relerr <> None -> Forall left_iso (removelast (lts x)) -> ovl l r (lts x) (lts x) = (ovl l r (lts z) (lts z) + dweights ys)%K)).
Proof.
  intros HC Hn Hrk Hre Hl Hr. unfold compress_svd_l. destruct (Nat.ltb_spec 0 rank); [|lia]. cbn [passert].
  destruct x as [ts cl cr]. unfold llen in *. cbn [lts lcan rcan] in *.
  destruct ts as [|t ys]; [cbn in Hn; lia|]. cbn [length] in *.
  rewrite pyrange_down by lia.
  replace (Z.to_nat (Z.of_nat (S (length ys)) - 1 - 0)) with (length ys) by lia.
  rewrite (map_ext_in (fun k => (Z.of_nat (S (length ys)) - 1 - Z.of_nat k)%Z) (fun k => Z.of_nat (@length (nd K) [] + length ys - k)))
    by (intros k Hk; apply in_seq in Hk; cbn [length]; lia).
  assert (HC0 : chain_ok (([] ++ t :: ys) ++ []) l r) by (rewrite app_nil_r; exact HC).
  pose proof (csvd_l_loop l r rank relerr Hrk Hre (length ys) [] t ys [] cl cr eq_refl HC0 (Forall_nil _) ltac:(cbn [length]; lia)) as HL.
  cbn [app] in HL. rewrite app_nil_r in HL.
  eapply outc_bind; [exact HL|]. clear HL.
  intros [z yl] [t' [us [cl' [cr' [G1 [G2 [G3 [G4 [G5 [G6 [G7 [G8 [G9 [G10 [G11 [G12 [G13 [G14 [G15 [G16 G17]]]]]]]]]]]]]]]]]]]].
  rewrite app_nil_r in *. cbn [fst snd app] in *. subst z. cbn [lts].
  change (pyget (t' :: us) 0) with (Ok t'). cbn [bind]. apply outc_ok.
  destruct (length ys) as [|n] eqn:Ln; [lia|]. cbn [Nat.eqb] in G2, G3. cbn [length] in G2, G3.
  assert (RG : forall P Q : nd K -> Prop, Forall Q us -> regions P Q (mkLt (t' :: us) cl' cr')).
  { intros P Q HP. split; unfold llen; cbn [lts lcan rcan length].
    - intros k Hk _. lia.
    - intros [|k] Hk Hk2; [lia|]. cbn [nth]. rewrite Forall_forall in HP. apply HP, nth_In. lia. }
  split.
  { split; [exact G9|]. split; [unfold mshape; cbn [lts map]; rewrite G5, G6; reflexivity|].
    split; [exact G10|]. split; [exact G11|]. split; [apply RG; exact G8|]. split; [apply RG; exact G12|exact G15]. }
  split; [symmetry; apply (ovl_center [] us t' l r); [exact (proj1 (proj2 G9))|constructor|exact G8]|].
  cbn [lcan rcan]. split; [rewrite G2; lia|]. split; [rewrite G3; lia|]. split; [lia|]. split; [exact G14|].
  split; [exact G16|exact G17].
Qed.

Lemma csvd_r_factor_none l r rank x1 t w x2 cl cr : chain_ok (x1 ++ t :: w :: x2) l r -> 0 < rank ->
  outc FS (csvd_r_factor svd svdfunc rank None (mkLt (x1 ++ t :: w :: x2) cl cr) (Z.of_nat (length x1)))
    (fun f => let '(_, _, s, _, _) := f in rdim t <= rank -> exists u V, rsplit t (length s) s u V /\ rexact t (length s) s u V).
Proof.
  intros HC Hrk. pose proof HC as [Hne [B P]]. pose proof (bonds_two _ _ _ _ _ _ B) as [B1 [Ht [Hu [El B2]]]].
  unfold pos in P. apply Forall_app in P. destruct P as [P1 P']. inversion P' as [|? ? Pt P'']; subst.
  unfold csvd_r_factor. cbn [lts]. rewrite pyget_at by reflexivity. cbn [bind].
  rewrite (shape_last_lt t Ht). cbn [bind]. rewrite (lmat_reshape t Ht Pt). cbn [bind].
  pose proof (lmat_is_mat t Ht Pt) as M.
  eapply outc_bind; [exact (svd_site_spec (lmat t) _ (rdim t) rank None M Hrk I)|].
  intros [[[u s] v] k] [H1 [H2 [H3 [H4 H5]]]]. cbn in H3. subst k. apply outc_ok. intros Hle.
  specialize (H5 I ltac:(lia)). rewrite firstn_all in *. destruct (rsplit_mk t _ _ _ _ Ht Pt H4) as [RS RE]. eauto.
Qed.

Section WithQR.
Variable qr : nd K -> res (nd K * nd K).
Hypothesis Hqr : qr_sound qr.
Definition FQS : Prop := qr_fails qr \/ svd_fails svd \/ tsvd_fails svdfunc.

Lemma ovl_amps l r x y z : mshape x = mshape y -> same_amps l r y x -> ovl l r (lts x) (lts z) = ovl l r (lts y) (lts z).
Proof.
  intros E HA. unfold ovl, gram. apply bigsum_ext. intros a Ha. apply bigsum_ext. intros b Hb. unfold mshape in E. rewrite E.
  apply msums_ext. intros is Hi. rewrite HA by assumption. reflexivity.
Qed.
Lemma ovl_amps2 l r x y : mshape x = mshape y -> same_amps l r y x -> ovl l r (lts x) (lts x) = ovl l r (lts y) (lts x).
Proof. intros. apply ovl_amps; assumption. Qed.
Lemma ovl_amps_both l r x y : mshape x = mshape y -> same_amps l r y x -> ovl l r (lts x) (lts x) = ovl l r (lts y) (lts y).
Proof.
  intros E HA. unfold ovl, gram. apply bigsum_ext. intros a Ha. apply bigsum_ext. intros b Hb. unfold mshape in E. rewrite E.
  apply msums_ext. intros is Hi. rewrite !HA by assumption. reflexivity.
Qed.

Lemma chain_ranks_pos (x : ltens K) l r : chain_ok (lts x) l r -> Forall (fun k => 0 < k) (ranks x).
Proof.
  intros [Hne [B P]]. unfold ranks. apply Forall_map. destruct (lts x) as [|t ts]; [constructor|]. cbn [tl].
  destruct B as [_ [_ B]]. inversion P as [|? ? _ P']; subst. clear -B P'. revert B. generalize (rdim t). induction ts as [|u ts IH]; intros d B; [constructor|].
  inversion P' as [|? ? Pu P2]; subst. destruct B as [Hu [E B]]. constructor; [|apply (IH P2 _ B)]. rewrite (size_lt u Hu) in Pu. nia.
Qed.
Lemma max_rank_spec (x : ltens K) l r : chain_ok (lts x) l r -> 2 <= llen x ->
  exists k, max_rank x = Ok k /\ 0 < k /\ Forall (fun j => j <= k) (ranks x) /\ In k (ranks x).
Proof.
  intros HC Hn. pose proof (chain_ranks_pos x l r HC) as HP. pose proof (ranks_length x) as HL. unfold max_rank.
  destruct (ranks x) as [|k ks]; [cbn in HL; lia|]. exists (fold_right Nat.max k ks). split; [reflexivity|].
  assert (HM : Forall (fun j => j <= fold_right Nat.max k ks) (k :: ks) /\ In (fold_right Nat.max k ks) (k :: ks)).
  { clear. induction ks as [|j ks IH]; [split; [constructor; [auto|constructor]|left; reflexivity]|]. cbn [fold_right]. destruct IH as [I1 I2].
    inversion I1 as [|? ? J1 J2]; subst. split.
    - constructor; [lia|]. constructor; [lia|]. eapply Forall_impl; [|exact J2]. cbn beta. intros; lia.
    - destruct (Nat.max_spec j (fold_right Nat.max k ks)) as [[_ ->]|[_ ->]]; [|right; left; reflexivity]. destruct I2 as [<-|I2]; [left; reflexivity|right; right; exact I2]. }
  destruct HM as [M1 M2]. split; [|split; assumption]. rewrite Forall_forall in HP. apply HP; exact M2.
Qed.

(** The first call is always made with valid arguments. *)
Lemma canon_r1 l r x : chain_ok (lts x) l r -> cform_wk x -> 2 <= llen x ->
  outc (qr_fails qr) (canonicalize qr x CANone (CAInt 1)) (fun z => sim l r x z /\ cform_wk z /\ (cform_ok x -> cform_ok z) /\ (rcan z <= 1)%Z).
Proof.
  intros HC HF Hn. assert (N1 : ~ (CANone = CANone /\ CAInt 1 = CANone)) by (intros [_ E]; discriminate).
  pose proof (canonicalize_spec qr Hqr l r x CANone (CAInt 1) HC HF N1) as HS. cbv zeta in HS. cbn [left_target right_target] in HS.
  change (1 <? 0)%Z with false in HS. cbn iota in HS.
  eapply outc_weaken; [apply HS; lia|auto|].
  intros z [S [W [C [_ E]]]]. split; [exact S|]. split; [exact W|]. split; [exact C|]. rewrite E.
  destruct (Z.ltb_spec 1 (rcan x)); [lia|]. destruct HF. destruct (Z.ltb_spec (lcan x) 0); lia.
Qed.
Lemma canon_ln l r x : chain_ok (lts x) l r -> cform_wk x -> 2 <= llen x ->
  outc (qr_fails qr) (canonicalize qr x (CAInt (Z.of_nat (llen x) - 1)) CANone)
    (fun z => sim l r x z /\ cform_wk z /\ (cform_ok x -> cform_ok z) /\ (Z.of_nat (llen x) - 1 <= lcan z)%Z).
Proof.
  intros HC HF Hn. assert (N1 : ~ (CAInt (Z.of_nat (llen x) - 1) = CANone /\ CANone = CANone)) by (intros [E _]; discriminate).
  pose proof (canonicalize_spec qr Hqr l r x (CAInt (Z.of_nat (llen x) - 1)) CANone HC HF N1) as HS. cbv zeta in HS. unfold left_target, right_target in HS.
  destruct (Z.ltb_spec (Z.of_nat (llen x) - 1) 0); [lia|].
  eapply outc_weaken; [apply HS; lia|auto|].
  intros z [S [W [C [E _]]]]. split; [exact S|]. split; [exact W|]. split; [exact C|]. rewrite E.
  destruct (Z.ltb_spec (Z.of_nat (llen x)) (rcan x)); lia.
Qed.
Definition rank_pos (rank : option nat) : Prop := match rank with Some k => 0 < k | None => True end.
Definition ranks_le (rank : option nat) (x : ltens K) : Prop :=
  match rank with Some k => Forall (fun j => j <= k) (ranks x) | None => True end.

Lemma compressed_sim l r rank x y z : sim l r x y -> compressed l r rank y z -> compressed l r rank x z.
Proof.
  intros [S1 [S2 [S3 [S4 _]]]] [C1 [C2 [C3 [C4 [C5 [C6 C7]]]]]].
  split; [exact C1|]. split; [congruence|]. split; [eapply Forall2_le_trans; eassumption|]. split; [exact C4|]. split; [exact C5|]. split; [exact C6|].
  rewrite <- C7. symmetry. apply ovl_amps; assumption.
Qed.

Lemma Forall2_le_bound k a b : Forall2 le a b -> Forall (fun j => j <= k) b -> Forall (fun j => j <= k) a.
Proof. intros H. induction H; intros HF; constructor; inversion HF; subst; [lia|auto]. Qed.

Theorem compress_svd_spec l r x rank relerr dir canon : chain_ok (lts x) l r -> cform_wk x -> (llen x = 1 -> cform_ok x /\ canon_true x) ->
  rank_pos rank -> relerr_ok relerr -> dir <> DOther ->
  outc FQS (compress_svd qr svd svdfunc x rank relerr dir canon)
    (fun p => let '(z, ov) := p in
       chain_ok (lts z) l r /\ mshape z = mshape x /\ Forall2 le (ranks z) (ranks x) /\ ranks_le rank z /\
       cform_ok z /\ canon_true z /\
       ov = ovl l r (lts z) (lts z) /\ ovl l r (lts x) (lts z) = ovl l r (lts z) (lts z) /\
       (relerr_exact relerr -> ranks_le rank x -> same_amps l r x z)).
Proof.
  intros HC HF H1 Hrk Hre Hdir. unfold compress_svd.
  destruct (Nat.eqb_spec (llen x) 1) as [E1|E1].
  { destruct (H1 E1) as [HO HT]. eapply outc_bind.
    - eapply outc_weaken; [exact (norm_spec qr Hqr l r x HC HO HT)|intros HQ; left; exact HQ|intros z Hz; exact Hz].
    - intros [ov z] [Eo [S [C _]]]. cbn [fst snd] in *. apply outc_ok. pose proof S as [S1 [S2 [S3 [S4 [S5 S6]]]]].
      assert (Er : ranks z = []).
      { pose proof (ranks_length z) as L. rewrite (sim_len _ _ _ _ S), E1 in L. destruct (ranks z); [reflexivity|cbn in L; lia]. }
      split; [exact S1|]. split; [exact S2|]. split; [exact S3|]. split; [unfold ranks_le; rewrite Er; destruct rank; [constructor|exact I]|].
      split; [exact C|]. split; [exact (S5 HT)|]. rewrite Eo. rewrite (ovl_amps_both l r z x S2 S4).
      split; [reflexivity|]. split; [|intros _ _; exact S4]. rewrite <- (ovl_amps l r z x z S2 S4). apply ovl_amps_both; assumption. }
  assert (Hn : 2 <= llen x) by (destruct HC as [Hne _]; unfold llen in *; destruct (lts x) as [|t [|u ts]]; cbn in *; [congruence|lia|lia]).
  destruct (max_rank_spec x l r HC Hn) as [mk [Em [Mp [Mf Mi]]]].
  assert (HR : exists rk, (match rank with Some r0 => Ok r0 | None => max_rank x end) = Ok rk /\ 0 < rk /\
     (forall z, Forall (fun j => j <= rk) (ranks z) -> ranks_le rank z) /\ (ranks_le rank x -> Forall (fun j => j <= rk) (ranks x))).
  { destruct rank as [k|].
    - exists k. cbn in Hrk. cbn. auto.
    - exists mk. cbn. auto. }
  destruct HR as [rk [-> [Rp [R1 R2]]]]. unfold canonical_form. cbn [bind].
  assert (HR : outc FQS (do x1 <- (if canon then canonicalize qr x CANone (CAInt 1) else Ok x);
     do p <- compress_svd_r svd svdfunc x1 rk relerr; Ok (fst (fst p), snd p)) (fun p => let '(z, ov) := p in
       chain_ok (lts z) l r /\ mshape z = mshape x /\ Forall2 le (ranks z) (ranks x) /\ ranks_le rank z /\
       cform_ok z /\ canon_true z /\
       ov = ovl l r (lts z) (lts z) /\ ovl l r (lts x) (lts z) = ovl l r (lts z) (lts z) /\
       (relerr_exact relerr -> ranks_le rank x -> same_amps l r x z))).
  { eapply (outc_bind _ _ _ (fun y => sim l r x y /\ cform_wk y)).
    - destruct canon; [|apply outc_ok; split; [apply sim_refl; exact HC|exact HF]].
      eapply outc_weaken; [exact (canon_r1 l r x HC HF Hn)|intros HQ; left; exact HQ|]. intros z [S [W _]]. auto.
    - intros y [S [W1 W2]]. pose proof (sim_len _ _ _ _ S) as Len. pose proof S as [S1 [S2 [S3 [S4 [S5 S6]]]]].
      eapply outc_bind; [eapply outc_weaken; [apply (compress_svd_r_spec l r rk relerr y S1); [lia|exact Rp|exact Hre|lia|lia]|intros HQ; right; exact HQ|intros z Hz; exact Hz]|].
      intros [[z ys] ov] [Cm [Eo [El [Er [_ [_ [Ex _]]]]]]]. cbn [fst snd]. apply outc_ok.
      pose proof (compressed_sim l r rk x y z S Cm) as [D1 [D2 [D3 [D4 [D5 [D6 D7]]]]]].
      split; [exact D1|]. split; [exact D2|]. split; [exact D3|]. split; [exact (R1 z D4)|].
      assert (Lz : llen z = llen x) by (unfold llen, mshape in *; apply (f_equal (@length _)) in D2; rewrite !map_length in D2; exact D2).
      split; [unfold cform_ok, cf_ok; rewrite El, Er, Lz, Len; lia|]. split; [exact D5|]. split; [exact Eo|]. split; [exact D7|].
      intros Hx Hle. destruct (Ex Hx (Forall2_le_bound _ _ _ S3 (R2 Hle))) as [A _]. intros is a b Hi Ha Hb. rewrite A by (try assumption; rewrite S2; exact Hi). apply S4; assumption. }
  assert (HL : outc FQS (do x1 <- (if canon then canonicalize qr x (CAInt (Z.of_nat (llen x) - 1)) CANone else Ok x);
     do p <- compress_svd_l svd svdfunc x1 rk relerr; Ok (fst (fst p), snd p)) (fun p => let '(z, ov) := p in
       chain_ok (lts z) l r /\ mshape z = mshape x /\ Forall2 le (ranks z) (ranks x) /\ ranks_le rank z /\
       cform_ok z /\ canon_true z /\
       ov = ovl l r (lts z) (lts z) /\ ovl l r (lts x) (lts z) = ovl l r (lts z) (lts z) /\
       (relerr_exact relerr -> ranks_le rank x -> same_amps l r x z))).
  { eapply (outc_bind _ _ _ (fun y => sim l r x y /\ cform_wk y)).
    - destruct canon; [|apply outc_ok; split; [apply sim_refl; exact HC|exact HF]].
      eapply outc_weaken; [exact (canon_ln l r x HC HF Hn)|intros HQ; left; exact HQ|]. intros z [S [W _]]. auto.
    - intros y [S [W1 W2]]. pose proof (sim_len _ _ _ _ S) as Len. pose proof S as [S1 [S2 [S3 [S4 [S5 S6]]]]].
      eapply outc_bind; [eapply outc_weaken; [apply (compress_svd_l_spec l r rk relerr y S1); [lia|exact Rp|exact Hre|lia|lia]|intros HQ; right; exact HQ|intros z Hz; exact Hz]|].
      intros [[z ys] ov] [Cm [Eo [El [Er [_ [_ [Ex _]]]]]]]. cbn [fst snd]. apply outc_ok.
      pose proof (compressed_sim l r rk x y z S Cm) as [D1 [D2 [D3 [D4 [D5 [D6 D7]]]]]].
      split; [exact D1|]. split; [exact D2|]. split; [exact D3|]. split; [exact (R1 z D4)|].
      assert (Lz : llen z = llen x) by (unfold llen, mshape in *; apply (f_equal (@length _)) in D2; rewrite !map_length in D2; exact D2).
      split; [unfold cform_ok, cf_ok; rewrite El, Er, Lz; lia|]. split; [exact D5|]. split; [exact Eo|]. split; [exact D7|].
      intros Hx Hle. pose proof (Ex Hx (Forall2_le_bound _ _ _ S3 (R2 Hle))) as A. intros is a b Hi Ha Hb. rewrite A by (try assumption; rewrite S2; exact Hi). apply S4; assumption. }
  destruct dir; [destruct (lcan x <? Z.of_nat (llen x) - rcan x)%Z|..]; try assumption. congruence.
Qed.

(** Exact form of the result. *)
Theorem compress_svd_form x rank relerr dir canon l r : chain_ok (lts x) l r -> cform_wk x -> 2 <= llen x ->
  rank_pos rank -> relerr_ok relerr -> forall z ov,
  compress_svd qr svd svdfunc x rank relerr dir canon = Ok (z, ov) ->
  let left := match dir with DNone => (lcan x <? Z.of_nat (llen x) - rcan x)%Z | DLeft => true | _ => false end in
  if left then lcan z = 0%Z /\ rcan z = 1%Z else lcan z = (Z.of_nat (llen x) - 1)%Z /\ rcan z = Z.of_nat (llen x).
Proof.
  intros HC HF Hn Hrk Hre z ov. unfold compress_svd. destruct (Nat.eqb_spec (llen x) 1) as [E1|E1]; [lia|].
  destruct (max_rank_spec x l r HC Hn) as [mk [Em [Mp [Mf Mi]]]].
  assert (HR : exists rk, (match rank with Some r0 => Ok r0 | None => max_rank x end) = Ok rk /\ 0 < rk) by (destruct rank as [k|]; [exists k|exists mk]; auto).
  destruct HR as [rk [-> Rp]]. unfold canonical_form. cbn [bind].
  assert (HR : (do x1 <- (if canon then canonicalize qr x CANone (CAInt 1) else Ok x);
     do p <- compress_svd_r svd svdfunc x1 rk relerr; Ok (fst (fst p), snd p)) = Ok (z, ov) -> lcan z = (Z.of_nat (llen x) - 1)%Z /\ rcan z = Z.of_nat (llen x)).
  { intros E. destruct (if canon then canonicalize qr x CANone (CAInt 1) else Ok x) as [y|e] eqn:Ey; cbn [bind] in E; [|discriminate].
    assert (S : sim l r x y /\ cform_wk y).
    { destruct canon; [|injection Ey as <-; split; [apply sim_refl; exact HC|exact HF]]. pose proof (outc_inv _ _ _ _ (canon_r1 l r x HC HF Hn) Ey) as [S [W _]]. auto. }
    destruct S as [S [W1 W2]]. pose proof (sim_len _ _ _ _ S) as Len.
    assert (HO := compress_svd_r_spec l r rk relerr y (proj1 S) ltac:(lia) Rp Hre ltac:(lia) ltac:(lia)).
    destruct (compress_svd_r svd svdfunc y rk relerr) as [[[z' ys] ov']|e]; [|discriminate]. cbn [bind fst snd] in E. injection E as -> ->.
    pose proof (outc_inv _ _ _ _ HO eq_refl) as [_ [_ [El [Er _]]]]. rewrite El, Er, Len. auto. }
  assert (HL : (do x1 <- (if canon then canonicalize qr x (CAInt (Z.of_nat (llen x) - 1)) CANone else Ok x);
     do p <- compress_svd_l svd svdfunc x1 rk relerr; Ok (fst (fst p), snd p)) = Ok (z, ov) -> lcan z = 0%Z /\ rcan z = 1%Z).
  { intros E. destruct (if canon then canonicalize qr x (CAInt (Z.of_nat (llen x) - 1)) CANone else Ok x) as [y|e] eqn:Ey; cbn [bind] in E; [|discriminate].
    assert (S : sim l r x y /\ cform_wk y).
    { destruct canon; [|injection Ey as <-; split; [apply sim_refl; exact HC|exact HF]]. pose proof (outc_inv _ _ _ _ (canon_ln l r x HC HF Hn) Ey) as [S [W _]]. auto. }
    destruct S as [S [W1 W2]]. pose proof (sim_len _ _ _ _ S) as Len.
    assert (HO := compress_svd_l_spec l r rk relerr y (proj1 S) ltac:(lia) Rp Hre ltac:(lia) ltac:(lia)).
    destruct (compress_svd_l svd svdfunc y rk relerr) as [[[z' ys] ov']|e]; [|discriminate]. cbn [bind fst snd] in E. injection E as -> ->.
    pose proof (outc_inv _ _ _ _ HO eq_refl) as [_ [_ [El [Er _]]]]. rewrite El, Er. auto. }
  destruct dir; cbn zeta iota; [destruct (lcan x <? Z.of_nat (llen x) - rcan x)%Z|..]; try assumption. discriminate.
Qed.

Theorem compress_svd_errors x rank relerr canon : 2 <= llen x ->
  (rank = Some 0 -> forall dir, dir <> DOther -> canon = false -> compress_svd qr svd svdfunc x rank relerr dir canon = Err AssertionError) /\
  compress_svd qr svd svdfunc x rank relerr DOther canon = Err ValueError.
Proof.
  intros Hn. assert (Hr : exists r rs, ranks x = r :: rs).
  { pose proof (ranks_length x) as L. destruct (ranks x) as [|r rs]; [cbn in L; lia|eauto]. }
  split.
  - intros E0 dir Hd E0'. subst rank canon. unfold compress_svd. destruct (Nat.eqb_spec (llen x) 1); [lia|]. unfold canonical_form. cbn [bind].
    unfold compress_svd_r, compress_svd_l. cbn [Nat.ltb Nat.leb passert bind].
    destruct dir; [destruct (lcan x <? Z.of_nat (llen x) - rcan x)%Z|..]; try reflexivity. congruence.
  - unfold compress_svd. destruct (Nat.eqb_spec (llen x) 1); [lia|]. unfold canonical_form, max_rank. destruct Hr as [r [rs ->]].
    destruct rank; reflexivity.
Qed.

End WithQR.
End WithSVD.
(** ** singularvals *)
Section Singularvals.
Variable qr : nd K -> res (nd K * nd K).
Variable svd : nd K -> res (nd K * list K * nd K).
Hypothesis Hqr : qr_sound qr.
Hypothesis Hsvd : svd_sound svd.

Theorem singularvals_spec l r (x : ltens K) : chain_ok (lts x) l r -> cform_wk x -> canon_true x -> 2 <= llen x ->
  outc (qr_fails qr \/ svd_fails svd) (singularvals qr svd x)
    (fun p => let '(ss, z) := p in
       length ss = llen x - 1 /\ (forall j, j < llen x - 1 -> schmidt l r (lts x) (S j) (nth j ss [])) /\
       chain_ok (lts z) l r /\ mshape z = mshape x /\ Forall2 le (ranks z) (ranks x) /\ same_amps l r x z /\ canon_true z /\ cform_wk z).
Proof.
  intros HC HF HT Hn. unfold singularvals. destruct (Nat.eqb_spec (llen x) 1) as [E1|E1]; [lia|].
  assert (HTS : tsvd_sound (truncated_svd svd)) by (apply truncated_svd_sound; exact Hsvd).
  assert (HFS : FS svd (truncated_svd svd) -> qr_fails qr \/ svd_fails svd).
  { intros [H|H]; right; [exact H|]. exact (truncated_svd_fails svd H). }
  eapply outc_bind; [eapply outc_weaken; [exact (canon_r1 qr Hqr l r x HC HF Hn)|intros HQ; left; exact HQ|intros z Hz; exact Hz]|].
  intros y [S [W [_ Hr1]]]. pose proof (sim_len _ _ _ _ S) as Len. pose proof S as [S1 [S2 [S3 [S4 [S5 S6]]]]]. specialize (S5 HT).
  destruct (max_rank_spec y l r S1 ltac:(lia)) as [mk [Em [Mp [Mf Mi]]]]. rewrite Em. cbn [bind].
  destruct (Nat.ltb_spec 0 mk); [|lia]. cbn [passert]. rewrite <- Len in *.
  destruct y as [ts cl cr]. unfold llen in *. cbn [lts lcan rcan] in *.
  destruct (exists_last (l := ts)) as [ts1 [w E]]; [intros ->; cbn in Hn; lia|]. subst ts.
  destruct (exists_last (l := ts1)) as [ys [t E]]; [intros ->; cbn in Hn; lia|]. subst ts1. rewrite <- app_assoc in *. cbn [app] in *.
  rewrite app_length in *. cbn [length] in *.
  rewrite pyrange_up by lia.
  replace (Z.to_nat (Z.of_nat (length ys + 2) - 2 - 0)) with (length ys) by lia.
  rewrite (map_ext (fun k => (0 + Z.of_nat k)%Z) (fun k => Z.of_nat (@length (nd K) [] + k))) by reflexivity.
  destruct W as [W1 W2]. unfold llen in W1, W2. cbn [lts lcan rcan] in W1, W2. rewrite app_length in W1, W2. cbn [length] in W1, W2.
  assert (HRT : Forall right_iso (tl (ys ++ [t; w]))).
  { destruct S5 as [_ T2]. unfold llen in T2. cbn [lts lcan rcan] in T2. change (tl (ys ++ [t; w])) with (skipn 1 (ys ++ [t; w])).
    apply Forall_skipn_nth. intros k Hk1 Hk2. apply T2; [lia|exact Hk2]. }
  assert (Hld : Forall (fun j => j <= mk) (map ldim (tl (ys ++ [t; w])))) by exact Mf.
  assert (Hyt : map rdim (ys ++ [t]) = map ldim (tl (ys ++ [t; w]))).
  { pose proof (bonds_rdims (ys ++ [t]) w [] l r) as Hb. rewrite <- !app_assoc in Hb. cbn [app] in Hb. apply Hb; [exact (proj1 (proj2 S1))|reflexivity]. }
  rewrite <- Hyt, map_app in Hld. apply Forall_app in Hld. destruct Hld as [Hly Hlt]. apply Forall_cons_iff in Hlt. destruct Hlt as [Hlt _].
  eapply outc_bind; [eapply outc_weaken; [exact (csvd_r_loop svd (truncated_svd svd) Hsvd HTS l r mk None Mp I (length ys) ys [] t [w] cl cr eq_refl S1 (Forall_nil _) ltac:(cbn [length]; lia))|exact HFS|intros z Hz; exact Hz]|].
  intros [z yl] [us [t' [cl' [cr' [G1 [[Z2 G2] [G3 [G4 [G5 [G6 [G7 [G8 [G9 [G10 [G11 [G12 [G13 [G14 [G15 [G16 G17]]]]]]]]]]]]]]]]]]]].
  cbn [fst snd app length] in *. subst z. destruct (G16 I Hly) as [A1 A2]. specialize (A2 eq_refl HRT).
  replace (Z.of_nat (length ys + 2) - 2)%Z with (Z.of_nat (length us)) by lia.
  eapply outc_bind; [eapply outc_weaken; [exact (csvd_r_factor_none svd (truncated_svd svd) Hsvd HTS l r mk us t' w [] cl' cr' G9 Mp)|exact HFS|intros z Hz; exact Hz]|].
  intros [[[[t0 u0] s] v0] k0'] HX. rewrite G7 in HX. specialize (HX Hlt). destruct HX as [u [V [RS RE]]]. apply outc_ok.
  assert (Rw : Forall right_iso [w]).
  { destruct ys as [|y ys]; cbn [tl app] in HRT; [exact HRT|]. apply Forall_app in HRT. destruct HRT as [_ HRT]. inversion HRT; assumption. }
  pose proof (schmidt_step us t' w [] u l r (length s) s V G9 G8 Rw RS RE) as Last.
  assert (AX : forall is a b, Forall2 inr is (mshape x) -> a < l -> b < r -> amp (us ++ [t'; w]) is a b = amp (lts x) is a b).
  { intros is a b Hi Ha Hb. rewrite A1 by (try assumption; unfold mshape in S2; cbn [lts] in S2; rewrite S2; exact Hi). apply S4; assumption. }
  assert (EM : map pdims (us ++ [t'; w]) = mshape x).
  { rewrite <- S2. unfold mshape. cbn [lts]. rewrite !map_app. cbn [map]. rewrite G5, G6. reflexivity. }
  split; [rewrite app_length, map_length; cbn [length]; lia|]. split.
  { intros j Hj. destruct (Nat.lt_ge_cases j (length ys)) as [Hj1|Hj1].
    - rewrite app_nth1 by (rewrite map_length; lia). rewrite (map_nth_lt _ _ fst yl j ([], 0) []) by lia.
      eapply schmidt_ext; [| |exact (A2 j Hj1)].
      + unfold mshape in S2. cbn [lts] in S2. symmetry. exact S2.
      + intros is a b Hi Ha Hb. symmetry. apply S4; try assumption. unfold mshape in S2. cbn [lts] in S2. rewrite S2 in Hi. exact Hi.
    - rewrite app_nth2 by (rewrite map_length; lia). rewrite map_length, G13. replace (j - length ys) with 0 by lia. cbn [nth].
      replace (Datatypes.S j) with (Datatypes.S (length us)) by lia. eapply schmidt_ext; [| |exact Last].
      + symmetry. exact EM.
      + intros is a b Hi Ha Hb. symmetry. apply AX; try assumption. rewrite <- EM. exact Hi. }
  cbn [lts]. split; [exact G9|]. split; [exact EM|]. split.
  { eapply Forall2_le_trans; [|exact S3]. unfold ranks. cbn [lts].
    pose proof (bonds_rdims (us ++ [t']) w [] l r) as Hb. rewrite <- !app_assoc in Hb. cbn [app] in Hb. rewrite <- (Hb (proj1 (proj2 G9)) eq_refl), <- Hyt.
    rewrite !map_app. apply Forall2_app; [exact G10|]. cbn [map]. rewrite G7. constructor; [lia|constructor]. }
  split; [exact AX|].
  assert (Lz : length (us ++ [t'; w]) = length ys + 2) by (rewrite app_length; cbn [length]; lia).
  destruct (length ys) as [|n] eqn:Ln; cbn [Nat.eqb] in G2, G3.
  { destruct us; [|discriminate]. destruct ys; [|discriminate]. cbn [app] in *. subst cl' cr'. split; [|unfold cform_wk, llen; cbn [lts lcan rcan length]; lia].
    rewrite (Z2 eq_refl). exact S5. }
  split; [|unfold cform_wk, llen; cbn [lts lcan rcan]; rewrite Lz; lia].
  split; unfold llen; cbn [lts lcan rcan].
  - intros k Hk Hk2. rewrite app_nth1 by lia. rewrite Forall_forall in G8. apply G8, nth_In. lia.
  - intros k Hk Hk2. rewrite Lz in Hk2. assert (k = length us + 1) by lia. subst k. rewrite app_nth2 by lia. replace (length us + 1 - length us) with 1 by lia. cbn [nth]. inversion Rw; assumption.
Qed.
End Singularvals.

End Compress.
