(** Facts about [_unitary_haar] and [random_mpdo] of factory.py. *)
From Verif Require Export PfRandom.
Open Scope nat_scope.

Section Mpdo.
Context {K : StarRing}.
Add Ring Kr : (k_ring K).
Variable qr : nd K -> res (nd K * nd K).
Variable sqrt_ inv : K -> K.
Variable sqr : nd K -> res (nd K * nd K).
Variable phase : K -> K.
Variable isq2 : K.
Hypothesis Hqr : qr_sound qr.

(** What is assumed of the QR decomposition that [_unitary_haar] uses for a square matrix:
    orthonormal rows of [q], and a phase of absolute value one for the diagonal of [r] (so
    no zero on that diagonal, which for a draw from the normal distribution happens with
    probability one). *)
Definition sqr_sound : Prop := forall a d, is_mat a d d ->
  (exists q r, sqr a = Ok (q, r) /\ shp q = [d; d] /\ ndwf q /\ shp r = [d; d] /\
     (forall i j, i < d -> j < d -> bigsum d (fun c => get q [i; c] * kconj (get q [j; c]))%K = delta i j) /\
     (forall j, j < d -> (phase (get r [j; j]) * kconj (phase (get r [j; j])))%K = k1)) \/
  sqr a = Err LinAlgError.
Definition sqr_fails : Prop := exists a, sqr a = Err LinAlgError.
Definition unitary_rows (u : nd K) (d : nat) : Prop := ndwf u /\ shp u = [d; d] /\
  forall i j, i < d -> j < d -> bigsum d (fun c => get u [i; c] * kconj (get u [j; c]))%K = delta i j.
Hypothesis Hsqr : sqr_sound.

Theorem unitary_haar_spec s k d : stream_ok s -> 0 < d -> outc sqr_fails (unitary_haar sqr phase isq2 s k d) (fun u => unitary_rows u d).
Proof.
  intros Hs Hd. unfold unitary_haar. destruct (Hs k [d; d]) as [Ss Ws].
  assert (Hm : is_mat (nscale isq2 (s k [d; d])) d d).
  { split; [exact Ss|]. split; [apply wf_nscale; exact Ws|]. auto. }
  destruct (Hsqr _ _ Hm) as [(q & r & E & Sq & Wq & Sr & Hq & Hp)|E].
  - rewrite E. cbn [bind]. apply outc_ok. split; [apply wf_tab|]. split; [reflexivity|]. intros i j Hi Hj. rewrite <- (Hq i j Hi Hj). apply bigsum_ext. intros c Hc.
    rewrite !get_tab by (apply inr2; assumption). unfold axi. cbn [nth]. rewrite (kconj_mul K).
    set (p := phase (get r [c; c])). transitivity (get q [i; c] * kconj (get q [j; c]) * (p * kconj p))%K; [ring|]. unfold p. rewrite (Hp c Hc). ring.
  - rewrite E. right. split; [reflexivity|]. exists (nscale isq2 (s k [d; d])). exact E.
Qed.

(** ** One gauge step *)
Lemma gauge_step (x1 x2 : list (nd K)) t w u n : let ts := x1 ++ t :: w :: x2 in
  bonds ts 1 1 -> length ts = n -> unitary_rows u (rdim t) ->
  let t' := matdot t u in let w' := matdot (nconj (mat_T u)) w in
  exists z, (do t0 <- pyget ts (Z.of_nat (length x1)); do t1 <- matdot_py t0 u;
     do y1 <- lt_update_int (mkLt ts 0 (Z.of_nat n)) (Z.of_nat (length x1)) t1 None;
     do w0 <- pyget (lts y1) (Z.of_nat (S (length x1))); do w1 <- matdot_py (nconj (mat_T u)) w0;
     lt_update_int y1 (Z.of_nat (S (length x1))) w1 None) = Ok z /\
   z = mkLt (x1 ++ t' :: w' :: x2) 0 (Z.of_nat n) /\ bonds (lts z) 1 1 /\ map pdims (lts z) = map pdims ts /\ map ldim (lts z) = map ldim ts /\
   (forall is, Forall2 inr is (map pdims ts) -> amp (lts z) is 0 0 = amp ts is 0 0).
Proof.
  intros ts HB Hn (Wu & Su & Hu) t' w'. pose proof (bonds_two _ _ _ _ _ _ HB) as (B1 & Ht & Hw & El & B2).
  destruct (mat_T_spec u (rdim t) (rdim t) Su) as (ST & WT & GT).
  assert (SH : shp (nconj (mat_T u)) = [rdim t; rdim t]) by exact ST.
  assert (WH : ndwf (nconj (mat_T u))) by (apply wf_nconj; exact WT).
  destruct (matdot_right t u (rdim t) (rdim t) Su Wu Ht eq_refl) as (E1 & O1 & L1 & P1 & R1 & G1).
  destruct (matdot_left (nconj (mat_T u)) w (rdim t) (rdim t) SH WH Hw El) as (E2 & O2 & L2 & P2 & R2 & G2).
  fold t' in E1, O1, L1, P1, R1, G1. fold w' in E2, O2, L2, P2, R2, G2.
  assert (Hx : mpa_ok (mkLt ts 0 (Z.of_nat n))) by (split; [unfold ts; cbn [lts]; destruct x1; discriminate|exact HB]).
  assert (Len : length x1 < n /\ S (length x1) < n) by (rewrite <- Hn; unfold ts; rewrite app_length; cbn [length]; lia). destruct Len as [Len1 Len2].
  rewrite (pyget_at _ x1 t (w :: x2)) by reflexivity. cbn [bind]. rewrite E1. cbn [bind].
  rewrite (lt_update_int_none _ (length x1) t' Hx).
  2:{ unfold llen; cbn [lts]; rewrite Hn; exact Len1. } 2:{ exact O1. }
  2:{ cbn [lts]. unfold ts. rewrite app_nth2, Nat.sub_diag by lia. exact L1. }
  2:{ cbn [lts]. unfold ts. rewrite app_nth2, Nat.sub_diag by lia. exact R1. }
  cbn [bind lts lcan rcan]. unfold ts at 1. rewrite set_nth_at.
  assert (HB1 : bonds (x1 ++ t' :: w :: x2) 1 1) by (apply bonds_two_mk; [rewrite L1; exact B1|exact O1|exact Hw|rewrite R1; exact El|exact B2]).
  assert (Hx1 : mpa_ok (mkLt (x1 ++ t' :: w :: x2) (Z.min (Z.of_nat (length x1)) 0) (Z.max (Z.of_nat (length x1) + 1) (Z.of_nat n)))) by (split; [cbn [lts]; destruct x1; discriminate|exact HB1]).
  assert (PG : pyget (x1 ++ t' :: w :: x2) (Z.of_nat (S (length x1))) = Ok w).
  { replace (x1 ++ t' :: w :: x2) with ((x1 ++ [t']) ++ w :: x2) by (rewrite <- app_assoc; reflexivity). apply pyget_at. rewrite app_length. cbn [length]. lia. }
  rewrite PG. cbn [bind]. rewrite E2. cbn [bind].
  assert (Len1' : length (x1 ++ t' :: w :: x2) = n) by (rewrite <- Hn; unfold ts; rewrite !app_length; reflexivity).
  assert (N1 : nth (S (length x1)) (x1 ++ t' :: w :: x2) dummy = w) by (rewrite app_nth2 by lia; replace (S (length x1) - length x1) with 1 by lia; reflexivity).
  try (unfold ts at 1; rewrite set_nth_at).
  rewrite (lt_update_int_none _ (S (length x1)) w' Hx1).
  2:{ unfold llen; cbn [lts]; rewrite Len1'; exact Len2. } 2:{ exact O2. }
  2:{ cbn [lts]. rewrite N1, L2. symmetry. exact El. }
  2:{ cbn [lts]. rewrite N1. exact R2. }
  cbn [lts lcan rcan].
  replace (set_nth (S (length x1)) w' (x1 ++ t' :: w :: x2)) with (x1 ++ t' :: w' :: x2).
  2:{ replace (x1 ++ t' :: w :: x2) with ((x1 ++ [t']) ++ w :: x2) by (rewrite <- app_assoc; reflexivity). replace (S (length x1)) with (length (x1 ++ [t'])) by (rewrite app_length; cbn; lia). rewrite set_nth_at, <- app_assoc. reflexivity. }
  eexists. split; [reflexivity|]. split; [f_equal; lia|]. cbn [lts].
  assert (HB2 : bonds (x1 ++ t' :: w' :: x2) 1 1) by (apply bonds_two_mk; [rewrite L1; exact B1|exact O1|exact O2|rewrite R1, L2; reflexivity|rewrite R2; exact B2]).
  split; [exact HB2|]. split; [unfold ts; rewrite !map_app; cbn [map]; rewrite P1, P2; reflexivity|].
  split; [unfold ts; rewrite !map_app; cbn [map]; rewrite L1, L2, <- El; reflexivity|].
  intros is Hi. apply (amp_around x1 x2 t w t' w' 1 is 0 1); auto.
  - split; [exact O1|]. split; [exact O2|]. split; [exact L1|]. split; [exact P1|]. split; [congruence|]. split; [exact R2|exact P2].
  - intros a i j b Ha Hi' Hj Hb. rewrite R1.
    transitivity (bigsum (rdim t) (fun c => bigsum (rdim t) (fun d => bigsum (rdim t) (fun e => (ent t a i d * ent w e j b) * (get u [d; c] * kconj (get u [e; c])))))%K).
    { apply bigsum_ext. intros c Hc. rewrite (G1 a i c Ha Hi' Hc), (G2 c j b Hc Hj Hb). rewrite <- bigsum_mul_r. apply bigsum_ext. intros d Hd. rewrite <- bigsum_mul_l. apply bigsum_ext. intros e He.
      rewrite get_nconj, (GT c e Hc He). ring. }
    rewrite bigsum_swap. apply bigsum_ext. intros d Hd. rewrite bigsum_swap.
    transitivity (bigsum (rdim t) (fun e => delta (K:=K) d e * (ent t a i d * ent w e j b))%K).
    { apply bigsum_ext. intros e He. rewrite <- (Hu d e Hd He), <- bigsum_mul_r. apply bigsum_ext. intros c Hc. ring. }
    rewrite bigsum_delta_l by exact Hd. reflexivity.
Qed.

Lemma split_two (A : Type) (l : list A) n (d : A) : S n < length l ->
  exists l1 l2, l = l1 ++ nth n l d :: nth (S n) l d :: l2 /\ length l1 = n.
Proof.
  revert n. induction l as [|x l IH]; intros n H; [cbn in H; lia|]. destruct n as [|n].
  - destruct l as [|y l]; [cbn in H; lia|]. exists [], l. split; reflexivity.
  - destruct (IH n) as (l1 & l2 & E & L); [cbn in H; lia|]. exists (x :: l1), l2. split; [|cbn; lia]. cbn [nth app]. f_equal. exact E.
Qed.
Definition bond_at (ls : list nat) (n r : nat) : Prop := S n < length ls /\ r = nth (S n) ls 0 /\ 0 < r.
Lemma scramble_spec s k ns : forall rs (ts : list (nd K)), stream_ok s -> bonds ts 1 1 -> ts <> [] -> Forall2 (bond_at (map ldim ts)) ns rs ->
  outc sqr_fails (scramble sqr phase isq2 s k ns rs (mkLt ts 0 (Z.of_nat (length ts)))) (fun z =>
    mpa_ok z /\ canonical_form z = (0%Z, Z.of_nat (length ts)) /\ mshape z = map pdims ts /\ map ldim (lts z) = map ldim ts /\
    forall is, Forall2 inr is (map pdims ts) -> amp (lts z) is 0 0 = amp ts is 0 0).
Proof.
  induction ns as [|n ns IH]; intros rs ts Hs HB Hne HF; inversion HF as [|? r ? rs' H1 H2]; subst.
  - apply outc_ok. split; [split; assumption|]. repeat split; reflexivity.
  - destruct H1 as (Hn & -> & Hr). rewrite map_length in Hn. destruct (split_two _ ts n dummy Hn) as (x1 & x2 & E & L).
    set (t := nth n ts dummy) in *. set (w := nth (S n) ts dummy) in *.
    assert (Ew : nth (S n) (map ldim ts) 0 = ldim w) by (unfold w; rewrite (nth_indep _ 0 (ldim (dummy (K:=K)))) by (rewrite map_length; exact Hn); apply map_nth).
    rewrite Ew in Hr |- *.
    assert (HB' := HB). rewrite E in HB'. pose proof (bonds_two _ _ _ _ _ _ HB') as (_ & _ & _ & El & _).
    cbn [scramble]. eapply outc_bind; [apply (unitary_haar_spec s (k + n) (ldim w) Hs Hr)|]. intros u Hu. rewrite El in Hu.
    destruct (gauge_step x1 x2 t w u (length ts) HB' ltac:(rewrite <- E; reflexivity) Hu) as (z & Ez & Zz & Bz & Pz & Lz & Az).
    rewrite <- E in Ez, Pz, Lz, Az. cbn [lts]. rewrite L in Ez.
    destruct (pyget ts (Z.of_nat n)) as [t0|]; [|discriminate]. cbn [bind] in Ez |- *. destruct (matdot_py t0 u) as [t1|]; [|discriminate]. cbn [bind] in Ez |- *.
    destruct (lt_update_int _ (Z.of_nat n) t1 None) as [y1|]; [|discriminate]. cbn [bind] in Ez |- *. destruct (pyget (lts y1) _) as [w0|]; [|discriminate]. cbn [bind] in Ez |- *.
    destruct (matdot_py _ w0) as [w1|]; [|discriminate]. cbn [bind] in Ez |- *. destruct (lt_update_int y1 _ w1 None) as [z'|]; [|discriminate]. cbn [bind]. injection Ez as ->.
    assert (Lt : length (lts z) = length ts) by (rewrite <- (map_length pdims), Pz, map_length; reflexivity).
    assert (EZ : z = mkLt (lts z) 0 (Z.of_nat (length (lts z)))) by (rewrite Lt; rewrite Zz; reflexivity).
    rewrite EZ. eapply outc_weaken; [apply (IH rs' (lts z) Hs Bz)|auto|].
    + intros E0. rewrite E0 in Lt. destruct ts; [congruence|discriminate].
    + rewrite Lz. exact H2.
    + intros v (V1 & V2 & V3 & V4 & V5). rewrite Lt in V2. rewrite Pz in V3, V5. rewrite Lz in V4. split; [exact V1|]. split; [exact V2|]. split; [exact V3|]. split; [exact V4|].
      intros is Hi. rewrite (V5 is Hi). apply Az. exact Hi.
Qed.

(** ** The trace of a square operator *)
Lemma mtrace_sq (x : ltens K) ds : mpa_ok x -> mshape x = map (fun d => [d; d]) ds ->
  mtrace x (PTAll 0 1) = Ok (msum ds (fun cs => entry x (pairs cs cs))).
Proof.
  intros Hx Sx. assert (EA : pt_axes x (PTAll 0 1) = map (fun _ => Some (0%Z, 1%Z)) ds).
  { cbn [pt_axes]. transitivity (map (fun _ : list nat => Some (0%Z, 1%Z)) (mshape x)); [unfold mshape; rewrite map_map; reflexivity|rewrite Sx, map_map; reflexivity]. }
  rewrite mtrace_spec; [f_equal|exact Hx|..].
  - rewrite EA, Sx.
    transitivity (msum ds (fun cs => amp (lts x) (pairs cs cs) 0 0)).
    2:{ apply msum_ext. intros cs Hc. symmetry. apply entry_amp; [exact Hx|]. rewrite Sx. apply pairs_valid_sq; exact Hc. }
    set (qs := zip2 _ (map (fun _ => Some (0%Z, 1%Z)) ds) _). assert (Eq : qs = map (fun _ => Some (0, 1)) ds) by (unfold qs; clear; induction ds; cbn; [reflexivity|f_equal; assumption]). rewrite Eq. clear qs Eq.
    clear. generalize (lts x). intros ts. transitivity (msums (singles ds) (fun cs => amp ts (zip4 tr_idx (map (fun _ => Some (0, 1)) ds) (map (fun d => [d; d]) ds) (map (fun _ => []) (map (fun d => [d; d]) ds)) cs) 0 0)).
    { f_equal. induction ds as [|d ds IH]; [reflexivity|]. cbn. rewrite Nat.min_id. f_equal. exact IH. }
    rewrite msums_singles. apply msum_ext. intros cs Hc. f_equal. induction Hc as [|c d cs ds Hc HF IH]; [reflexivity|]. cbn. f_equal. exact IH.
  - rewrite EA, Sx. clear. induction ds as [|d ds IH]; [constructor|]. cbn [map]. constructor; [|exact IH]. cbn. repeat split; try lia. discriminate.
  - rewrite EA, Sx. clear. induction ds as [|d ds IH]; [constructor|]. cbn. constructor; [reflexivity|exact IH].
Qed.

(** ** One pure state of the mixture *)
Lemma pure_term (x : ltens K) ds w : mpa_ok x -> mshape x = singles ds ->
  exists m z, mps_to_mpo x = Ok m /\ mmul m w = Ok z /\ mpa_ok z /\ mshape z = map (fun d => [d; d]) ds /\ ranks z = map (fun r => r * r) (ranks x) /\
    forall is js, inr is ds -> inr js ds -> entry z (pairs is js) = (w * (entry x (singles is) * kconj (entry x (singles js))))%K.
Proof.
  intros Hx Sx. assert (H1 : one_leg (mshape x)) by (rewrite Sx; unfold one_leg, singles; rewrite Forall_map; apply Forall_forall; reflexivity).
  assert (L1 : leg1 (mshape x) = ds) by (rewrite Sx; unfold leg1, singles; rewrite map_map; apply map_id).
  destruct (mps_to_mpo_spec x Hx H1) as (m & Em & Hm & Sm & Rm & Am). rewrite L1 in Sm, Am. exists m.
  assert (Cm : canonical_form m = (0%Z, Z.of_nat (llen m))).
  { unfold mps_to_mpo in Em. destruct (mps_to_pmps_spec x Hx H1) as (p & Ep & Hp & Sp & _ & _ & _ & _). rewrite Ep in Em. cbn [bind] in Em. rewrite L1 in Sp.
    destruct (pmps_to_mpo_spec p Hp) as (z & Ez & _ & Sz & _ & Cz & _). { rewrite Sp. unfold two_legs. rewrite Forall_map. apply Forall_forall. reflexivity. }
    rewrite Em in Ez. injection Ez as <-. rewrite Cz. do 2 f_equal. rewrite <- (mshape_length p), <- (mshape_length m), Sz. unfold leg1. rewrite !map_length. reflexivity. }
  destruct (trivial_form m Hm Cm) as (C1 & _ & _). destruct (mmul_spec m w Hm C1) as (z & Ez & Hz & Sz & Rz & _ & _ & Az).
  exists z. split; [exact Em|]. split; [exact Ez|]. split; [exact Hz|]. split; [congruence|]. split; [congruence|]. intros is js Hi Hj.
  assert (V : valid_idx (pairs is js) (mshape m)) by (rewrite Sm; apply pairs_valid_sq; assumption).
  rewrite <- (Am is js Hi Hj). rewrite !entry_amp by (auto; rewrite Sz; exact V). apply Az. exact V.
Qed.

Lemma repeat_of (A : Type) (l : list A) x n : length l = n -> (forall y, In y l -> y = x) -> l = repeat x n.
Proof. intros <-. induction l as [|y l IH]; intros H; [reflexivity|]. cbn [length repeat]. rewrite <- IH by (intros; apply H; right; assumption). f_equal. apply H. left. reflexivity. Qed.
Lemma Forall2_by_nth (A B : Type) (P : A -> B -> Prop) (l : list A) (m : list B) d e : length l = length m -> (forall k, k < length l -> P (nth k l d) (nth k m e)) -> Forall2 P l m.
Proof.
  revert m. induction l as [|x l IH]; intros [|y m] L H; try discriminate; constructor.
  - apply (H 0). cbn. lia.
  - apply IH; [cbn in L; lia|]. intros k Hk. apply (H (S k)). cbn. lia.
Qed.
Lemma nth_rep (A : Type) (x d : A) n k : k < n -> nth k (repeat x n) d = x.
Proof. revert k. induction n as [|n IH]; intros [|k] H; try lia; cbn; [reflexivity|]. apply IH. lia. Qed.
Lemma ranks_one sites dims : Forall (fun p => 0 < size p) dims -> length dims = sites -> gen_ranks sites dims (RkInt 1) false = repeat 1 (sites - 1).
Proof.
  intros Hp Hl. unfold gen_ranks, asked_ranks. rewrite <- (zip2_combine nat nat nat Nat.min). apply repeat_of.
  - rewrite map_length, combine_length, repeat_length, full_rank_len. lia.
  - intros y Hy. apply in_map_iff in Hy. destruct Hy as [[a b] [<- Hy]]. cbn [fst snd]. pose proof (in_combine_l _ _ _ _ Hy) as Ha. apply repeat_spec in Ha. subst a.
    pose proof (in_combine_r _ _ _ _ Hy) as Hb. pose proof (full_rank_pos dims Hp) as F. rewrite Forall_forall in F. specialize (F b Hb). lia.
Qed.
(** sum_k w_k psi_k(is) conj psi_k(js) *)
Definition mixture (ws : list K) (psis : list (ltens K)) (is js : list nat) : K :=
  bigsum (length psis) (fun k => nth k ws k0 * (entry (nth k psis (mkLt [] 0 0)) (singles is) * kconj (entry (nth k psis (mkLt [] 0 0)) (singles js))))%K.
Definition pure_product (ds : list nat) (psi : ltens K) : Prop :=
  mpa_pos psi /\ mshape psi = singles ds /\ ranks psi = repeat 1 (length ds - 1).
Lemma terms ds (ws : list K) : forall psis, length ws = length psis -> Forall (fun p => mpa_ok p /\ mshape p = singles ds) psis ->
  exists ms, mapM (fun p => do m <- mps_to_mpo (snd p); mmul m (fst p)) (combine ws psis) = Ok ms /\ length ms = length psis /\
    Forall mpa_ok ms /\ Forall (fun x => mshape x = map (fun d => [d; d]) ds) ms /\ map ranks ms = map (fun p => map (fun r => r * r) (ranks p)) psis /\
    forall k is js, k < length psis -> inr is ds -> inr js ds ->
      entry (nth k ms (mkLt [] 0 0)) (pairs is js) = (nth k ws k0 * (entry (nth k psis (mkLt [] 0 0)) (singles is) * kconj (entry (nth k psis (mkLt [] 0 0)) (singles js))))%K.
Proof.
  induction ws as [|w ws IH]; intros [|p psis] Hl HF; try discriminate.
  - exists []. repeat split; try constructor. intros k is js Hk. cbn in Hk. lia.
  - inversion HF as [|? ? [Hp Sp] HF']; subst. destruct (IH psis) as (ms & Em & Lm & Om & Sm & Rm & Am); [cbn in Hl; lia|exact HF'|].
    destruct (pure_term p ds w Hp Sp) as (m & z & E1 & E2 & Hz & Sz & Rz & Az).
    exists (z :: ms). cbn [combine mapM fst snd]. rewrite E1. cbn [bind]. rewrite E2. cbn [bind]. rewrite Em. cbn [bind].
    split; [reflexivity|]. split; [cbn; lia|]. split; [constructor; assumption|]. split; [constructor; assumption|]. split; [cbn [map]; rewrite Rz, Rm; reflexivity|].
    intros [|k] is js Hk Hi Hj; [apply Az; assumption|]. cbn [nth]. apply Am; auto. cbn in Hk. lia.
Qed.

Theorem random_mpdo_spec s sites ld rank ds :
  stream_ok s -> 0 < sites -> 0 < rank -> site_dims sites ld = Ok (singles ds) -> length ds = sites -> Forall (fun d => 0 < d) ds ->
  let ws := unit_weights inv (dat (s (rank * sites) [rank])) in
  outc (qr_fails qr \/ sqr_fails) (random_mpdo qr sqrt_ inv sqr phase isq2 s sites ld rank) (fun z =>
    mpa_ok z /\ mshape z = map (fun d => [d; d]) ds /\ ranks z = repeat rank (sites - 1) /\ canonical_form z = (0%Z, Z.of_nat sites) /\
    exists psis, mapM (fun i => random_mps qr sqrt_ inv s (i * sites) sites ld (RkInt 1) false) (seq 0 rank) = Ok psis /\
      length psis = rank /\ Forall (pure_product ds) psis /\
      let t := msum ds (fun cs => mixture ws psis cs cs) in
      (t = bigsum rank (fun k => nth k ws k0 * norm2_of (nth k psis (mkLt [] 0 0)))%K) /\
      (forall is js, inr is ds -> inr js ds -> entry z (pairs is js) = (inv t * mixture ws psis is js)%K)).
Proof.
  intros Hs Hn Hr Ed Hl Hd ws. set (dims := singles ds) in *.
  assert (Hl' : length dims = sites) by (unfold dims, singles; rewrite map_length; exact Hl).
  assert (Hp : Forall (fun p => 0 < size p) dims) by (unfold dims, singles; rewrite Forall_map; eapply Forall_impl; [|exact Hd]; intros d H; cbn beta; rewrite size_single; exact H).
  assert (H1 : outc (qr_fails qr \/ sqr_fails) (mapM (fun i => random_mps qr sqrt_ inv s (i * sites) sites ld (RkInt 1) false) (seq 0 rank))
     (fun psis => Forall2 (fun (i : nat) psi => pure_product ds psi) (seq 0 rank) psis)).
  { apply mapM_outc. intros i _. unfold random_mps. eapply outc_weaken.
    - apply (random_mpa_spec qr sqrt_ inv Hqr s (i * sites) sites ld (RkInt 1) true false dims Hs Hn Ed Hl').
      + unfold asked_ranks. rewrite repeat_length. lia.
      + exact Hp.
      + unfold asked_ranks. apply Forall_forall. intros r Hi. apply repeat_spec in Hi. lia.
    - auto.
    - intros z (Z1 & Z2 & Z3 & Z4 & _). split; [exact Z1|]. split; [exact Z2|]. rewrite Z3, (ranks_one sites dims Hp Hl'). rewrite Hl. reflexivity. }
  unfold random_mpdo.
  destruct H1 as [(psis & E1 & F1)|[E1 F1]]; [|rewrite E1; right; split; [reflexivity|exact F1]].
  rewrite E1. cbn [bind]. pose proof (Forall2_len _ _ _ _ _ F1) as Lp. rewrite seq_length in Lp.
  assert (F1' : Forall (pure_product ds) psis). { clear -F1. induction F1; constructor; auto. }
  fold ws. assert (Lw : length ws = length psis).
  { unfold ws, unit_weights. rewrite map_length. destruct (Hs (rank * sites) [rank]) as [Es Ws]. unfold ndwf in Ws. rewrite Ws, Es, size_single. exact Lp. }
  destruct (terms ds ws psis Lw) as (ms & Em & Lm & Om & Sm & Rm & Am). { eapply Forall_impl; [|exact F1']. intros p (P1 & P2 & _). split; [exact (proj1 P1)|exact P2]. }
  rewrite Em. cbn [bind]. assert (Hne : ms <> []) by (intros ->; cbn in Lm; lia).
  destruct (msumup_spec ms None sites (map (fun d => [d; d]) ds) Hne Om Sm) as (x & Ex & Hx & Sx & Rx & Cl & Cr & Ax). { rewrite map_length. exact Hl. } { intros w E. discriminate. }
  rewrite Ex. cbn [bind].
  assert (Rx' : ranks x = repeat rank (sites - 1)).
  { rewrite Rx. unfold sum_ranks. apply repeat_of; [rewrite map_length, seq_length; reflexivity|]. intros y Hy. apply in_map_iff in Hy. destruct Hy as [k [<- Hk]]. apply in_seq in Hk.
    assert (Q : map (fun x0 => nth k (ranks x0) 0) ms = repeat 1 rank).
    { transitivity (map (fun l => nth k l 0) (map ranks ms)); [rewrite map_map; reflexivity|]. rewrite Rm, map_map. apply repeat_of; [rewrite map_length; lia|].
      intros y Hy. apply in_map_iff in Hy. destruct Hy as [p [<- Hy]]. rewrite Forall_forall in F1'. destruct (F1' p Hy) as (_ & _ & Er). rewrite Er, map_rep.
      rewrite nth_rep by lia. reflexivity. }
    rewrite Q. clear. induction rank as [|r IH]; [reflexivity|]. change (1 + list_sum (repeat 1 r) = S r). rewrite IH. reflexivity. }
  assert (Lx : length (lts x) = sites) by (change (llen x = sites); rewrite <- (mshape_length x), Sx, map_length; exact Hl).
  assert (Ex' : x = mkLt (lts x) 0 (Z.of_nat (length (lts x)))) by (rewrite Lx, <- Cl, <- Cr; destruct x; reflexivity).
  assert (HF : Forall2 (bond_at (map ldim (lts x))) (seq 0 (length (ranks x))) (ranks x)).
  { apply (Forall2_by_nth _ _ _ _ _ 0 0); [apply seq_length|]. intros i Hi. rewrite seq_length in Hi. rewrite seq_nth by exact Hi. cbn [Nat.add].
    assert (Lr : length (ranks x) = sites - 1) by (rewrite Rx'; apply repeat_length). split; [rewrite map_length; lia|].
    split; [|rewrite Rx', nth_rep by lia; exact Hr]. rewrite ranks_nth by (unfold llen; lia).
    rewrite (nth_indep (map _ (lts x)) 0 (ldim (dummy (K:=K)))) by (rewrite map_length; lia). rewrite map_nth. reflexivity. }
  pose proof (scramble_spec s (rank * sites + 1) (seq 0 (length (ranks x))) (ranks x) (lts x) Hs (proj2 Hx) (proj1 Hx) HF) as SC. rewrite <- Ex' in SC.
  destruct SC as [(y & Ey & Hy & Cy & Sy & Ly & Ay)|[Ey Fy]].
  2:{ rewrite Ey. right. split; [reflexivity|right; exact Fy]. }
  rewrite Ey. cbn [bind]. change (map pdims (lts x)) with (mshape x) in Sy, Ay. rewrite Sx in Sy, Ay.
  assert (EY : forall is js, inr is ds -> inr js ds -> entry y (pairs is js) = mixture ws psis is js).
  { intros is js Hi Hj. assert (V : valid_idx (pairs is js) (map (fun d => [d; d]) ds)) by (apply pairs_valid_sq; assumption).
    rewrite entry_amp by (auto; rewrite Sy; exact V). rewrite (Ay _ V), (Ax _ V). unfold mixture. rewrite Lm. apply bigsum_ext. intros k Hk. unfold wt.
    rewrite <- (Am k is js Hk Hi Hj). rewrite entry_amp.
    - ring.
    - rewrite Forall_forall in Om. apply Om. apply nth_In. lia.
    - rewrite Forall_forall in Sm. rewrite Sm by (apply nth_In; lia). exact V. }
  rewrite (mtrace_sq y ds Hy Sy). cbn [bind]. set (t := msum ds (fun cs => mixture ws psis cs cs)).
  assert (Et : msum ds (fun cs => entry y (pairs cs cs)) = t) by (apply msum_ext; intros cs Hc; apply EY; assumption). rewrite Et.
  destruct (trivial_form y Hy) as (C1 & C2 & _); [rewrite Cy, <- (mshape_length y), Sy, map_length, Lx; congruence|].
  destruct (mimul_spec y (inv t) Hy C1) as (z & Ez & Hz & Sz & Rz & _ & _ & _ & Fz & Az). left. exists z. split; [exact Ez|].
  split; [exact Hz|]. split; [congruence|]. split.
  { rewrite Rz. unfold ranks in *. rewrite map_tl', Ly, <- map_tl'. exact Rx'. }
  split; [rewrite (Fz C2), Cy, Lx; reflexivity|]. exists psis. split; [reflexivity|]. split; [lia|]. split; [exact F1'|]. cbn zeta. fold t. split.
  - unfold t, mixture. rewrite msum_bigsum_swap. rewrite <- Lp. apply bigsum_ext. intros k Hk. rewrite msum_mul_l. f_equal.
    assert (Hin : In (nth k psis (mkLt [] 0 0)) psis) by (apply nth_In; lia). rewrite Forall_forall in F1'. destruct (F1' _ Hin) as (_ & Sp & _).
    unfold norm2_of, inner_of. rewrite Sp, msums_singles. apply msum_ext. intros cs _. ring.
  - intros is js Hi Hj. assert (V : valid_idx (pairs is js) (map (fun d => [d; d]) ds)) by (apply pairs_valid_sq; assumption).
    rewrite entry_amp by (auto; rewrite Sz, Sy; exact V). rewrite Az by (rewrite Sy; exact V). rewrite <- (EY is js Hi Hj). rewrite entry_amp by (auto; rewrite Sy; exact V). reflexivity.
Qed.
Lemma random_mpdo_rank0 s sites ld : random_mpdo qr sqrt_ inv sqr phase isq2 s sites ld 0 = Err IndexError.
Proof. unfold random_mpdo. cbn [seq mapM bind]. cbv zeta. rewrite combine_nil. reflexivity. Qed.
End Mpdo.
