(** Variational compression: every local update is the orthogonal projection, the
    returned number is the overlap with the original. *)
From Verif Require Export PfVar PfEig2.
From Verif Require Import PfCanon PfBounds PfUpdate PfFromArray PfCompress.
Open Scope nat_scope.

Lemma outc_and {A : Type} (F : Prop) (r : res A) (P : A -> Prop) : outc F r (fun _ => True) -> (forall z, r = Ok z -> P z) -> outc F r P.
Proof. intros [(z & E & _)|[E H]] Hp; [left; exists z; auto|right; auto]. Qed.

(** ** Sweeps with an invariant that depends on the position *)
Section Pos.
Context {K : StarRing}.
Variable qr : nd K -> res (nd K * nd K).
Variables (V : Type) (n v : nat) (F : Prop).
Variable ok : nat -> ltens K -> Prop.
Variable Q : ltens K -> Prop.
Variable g : ltens K -> nat -> res (V * list (nd K)).
Hypothesis Hup : forall s pos, ok pos (fst s) -> pos <= n - v -> outc F (g_local V v g s pos) (fun s' => ok pos (fst s') /\ Q (fst s')).
Hypothesis Hcl : forall x pos, ok pos x -> S pos <= n - v -> outc F (canonicalize qr x (CAInt (Z.of_nat (S pos))) CANone) (ok (S pos)).
Hypothesis Hcr : forall x pos, ok (S pos) x -> S pos <= n - v -> outc F (canonicalize qr x CANone (CAInt (Z.of_nat (pos + v)))) (ok pos).

Lemma ltr_pos m : forall pos s, ok pos (fst s) -> pos + m <= n - v ->
  outc F (foldM (g_ltr qr V v g) (seq (S pos) m) s) (fun s' => ok (pos + m) (fst s') /\ (Q (fst s) \/ 0 < m -> Q (fst s'))).
Proof.
  induction m as [|m IH]; intros pos s Hs Hm.
  - cbn. apply outc_ok. rewrite Nat.add_0_r. split; [exact Hs|]. intros [H|H]; [exact H|lia].
  - cbn [seq foldM]. eapply outc_bind.
    + unfold g_ltr. change (Nat.ltb 0 (S pos)) with true. cbn iota. eapply outc_bind; [apply (Hcl (fst s) pos Hs); lia|].
      intros x Hx. apply (Hup (x, snd s) (S pos) Hx). lia.
    + cbn beta. intros s1 [H1 Q1]. eapply outc_weaken; [apply (IH (S pos) s1 H1); lia|auto|].
      cbn beta. intros z [Hz Qz]. split; [replace (pos + S m) with (S pos + m) by lia; exact Hz|]. intros _. apply Qz. left. exact Q1.
Qed.
Lemma rtl_pos m : forall s, ok m (fst s) -> m <= n - v ->
  outc F (foldM (g_rtl qr V v g) (rev (seq 0 m)) s) (fun s' => ok 0 (fst s') /\ (Q (fst s) \/ 0 < m -> Q (fst s'))).
Proof.
  induction m as [|m IH]; intros s Hs Hm.
  - cbn. apply outc_ok. split; [exact Hs|]. intros [H|H]; [exact H|lia].
  - rewrite seq_S, rev_app_distr. cbn [rev app foldM Nat.add]. eapply outc_bind.
    + unfold g_rtl. eapply outc_bind; [apply (Hcr (fst s) m Hs); lia|]. intros x Hx. apply (Hup (x, snd s) m Hx). lia.
    + cbn beta. intros s1 [H1 Q1]. eapply outc_weaken; [apply (IH s1 H1); lia|auto|].
      cbn beta. intros z [Hz Qz]. split; [exact Hz|]. intros _. apply Qz. left. exact Q1.
Qed.
Lemma one_pos k s : ok 0 (fst s) -> (0 < k -> Q (fst s)) -> outc F (g_one qr V n v g s k) (fun s' => ok 0 (fst s') /\ Q (fst s')).
Proof.
  intros Hs Hq. unfold g_one.
  assert (H : outc F (foldM (g_ltr qr V v g) (if Nat.ltb 0 k then seq 1 (n - v) else seq 0 (n - v + 1)) s)
                (fun s1 => ok (n - v) (fst s1) /\ Q (fst s1))).
  { destruct (Nat.ltb_spec 0 k) as [L|L].
    - eapply outc_weaken; [apply (ltr_pos (n - v) 0 s Hs); lia|auto|]. cbn beta. intros z [Hz Qz]. split; [exact Hz|]. apply Qz. left. auto.
    - rewrite Nat.add_1_r. cbn [seq foldM]. eapply outc_bind.
      + unfold g_ltr. change (Nat.ltb 0 0) with false. cbn [bind]. apply (Hup (fst s, snd s) 0 Hs). lia.
      + cbn beta. intros s1 [H1 Q1]. eapply outc_weaken; [apply (ltr_pos (n - v) 0 s1 H1); lia|auto|].
        cbn beta. intros z [Hz Qz]. split; [exact Hz|]. apply Qz. left. exact Q1. }
  eapply outc_bind; [exact H|]. cbn beta. intros s1 [H1 Q1].
  eapply outc_weaken; [apply (rtl_pos (n - v) s1 H1); lia|auto|]. cbn beta. intros z [Hz Qz]. split; [exact Hz|]. apply Qz. left. exact Q1.
Qed.
Theorem sweeps_pos num s : ok 0 (fst s) ->
  outc F (g_sweeps qr V n v g num s) (fun s' => ok 0 (fst s') /\ (0 < num -> Q (fst s'))).
Proof.
  intros Hs. unfold g_sweeps.
  assert (H : forall m k s, ok 0 (fst s) -> (0 < k -> Q (fst s)) ->
    outc F (foldM (g_one qr V n v g) (seq k m) s) (fun s' => ok 0 (fst s') /\ (0 < k + m -> Q (fst s')))).
  { clear s Hs num. induction m as [|m IH]; intros k s Hs Hq.
    - cbn. apply outc_ok. rewrite Nat.add_0_r. auto.
    - cbn [seq foldM]. eapply outc_bind; [apply (one_pos k s Hs Hq)|]. cbn beta. intros s1 [H1 Q1].
      eapply outc_weaken; [apply (IH (S k) s1 H1); auto|auto|]. cbn beta. intros z [Hz Qz]. split; [exact Hz|]. intros _. apply Qz. lia. }
  apply (H num 0 s Hs). lia.
Qed.
End Pos.

(** ** Specification *)
Section Spec.
Context {K : StarRing}.
(** Inner product of two states given by their amplitudes. *)
Definition ip (ds : list nat) (f g : list nat -> K) : K := msum ds (fun is => kconj (f is) * g is)%K.
Definition state (x : ltens K) (is : list nat) : K := amp (lts x) (singles is) 0 0.
End Spec.

Section Var.
Context {K : StarRing}.
Add Ring Kr : (k_ring K).

Lemma msums_singles ds (f : list (list nat) -> K) : msums (singles ds) f = msum ds (fun is => f (singles is)).
Proof.
  revert f. induction ds as [|d ds IH]; intros f; [reflexivity|]. cbn [singles map]. cbn [msums msum].
  apply bigsum_ext. intros i _. exact (IH (fun is => f ([i] :: is))).
Qed.
Lemma ovl_ip (x y : ltens K) ds : mps_like (lts x) ds -> ovl 1 1 (lts x) (lts y) = ip ds (state x) (state y).
Proof.
  intros M. rewrite ovl_11. unfold gram. rewrite M, msums_singles. reflexivity.
Qed.
Lemma ip_conj ds (f g : list nat -> K) : kconj (ip ds f g) = ip ds g f.
Proof.
  unfold ip. rewrite msum_conj. apply msum_ext. intros is _. rewrite (kconj_mul K), (kconj_invol K). ring.
Qed.

(** The flags of [lt[pos:pos_end] = ...]. *)
Lemma upd_forms_none m : forall l r k, (0 < m) -> (k <= l)%Z -> (r <= k + Z.of_nat m)%Z ->
  upd_forms l r k (repeat None m) = (k, k + Z.of_nat m)%Z.
Proof.
  assert (G : forall m l r k, (l <= k)%Z -> upd_forms l r k (repeat None m) = (l, if Nat.eqb m 0 then r else Z.max r (k + Z.of_nat m))%Z).
  { clear. induction m as [|m IH]; intros l r k Hl; [reflexivity|]. cbn [repeat upd_forms]. unfold upd_form. cbn [flag_is andb fst snd].
    rewrite IH by lia. f_equal; [lia|]. destruct m; cbn [Nat.eqb]; lia. }
  intros l r k Hm Hl Hr. destruct m as [|m]; [lia|]. cbn [repeat upd_forms]. unfold upd_form. cbn [flag_is andb fst snd].
  rewrite G by lia. f_equal; [lia|]. destruct m; cbn [Nat.eqb]; lia.
Qed.
Lemma flags_none m : forall l r k (ts : list (nd K)), length ts = m -> Forall2 honest (repeat None m) ts /\ flags_safe l r k (repeat None m).
Proof.
  induction m as [|m IH]; intros l r k ts L; destruct ts as [|t ts]; try discriminate.
  - split; constructor.
  - cbn [repeat]. injection L as L. split.
    + constructor; [split; discriminate|]. apply (proj1 (IH l r k ts L)).
    + cbn [flags_safe]. split; [intros [H|H]; discriminate|]. apply (proj2 (IH _ _ _ ts L)).
Qed.

(** ** Overlaps in the window *)
Lemma arr_amp (us : list (nd K)) la ra d2 a i b : us <> [] -> bonds us la ra -> mps_like us d2 -> a < la -> inr i d2 -> b < ra ->
  get (ltens_to_array us) (a :: i ++ [b]) = amp us (singles i) a b.
Proof.
  intros N B M Ha Hi Hb. destruct (ltens_to_array_spec us la ra N B) as (_ & _ & _ & _ & A).
  rewrite <- (A a (singles i) b Ha); [|unfold idx_ok; rewrite M; apply singles_valid; exact Hi|exact Hb].
  rewrite concat_singles. reflexivity.
Qed.
Lemma ovl_local (us zs : list (nd K)) la ra d2 (f : list nat -> K) : us <> [] -> bonds us la ra -> mps_like us d2 ->
  (forall a i b, a < la -> inr i d2 -> b < ra -> amp zs (singles i) a b = f (a :: i ++ [b])) ->
  ovl la ra us zs = msum (la :: d2 ++ [ra]) (fun r => kconj (get (ltens_to_array us) r) * f r)%K.
Proof.
  intros N B M A. rewrite msum_local. unfold ovl. apply bigsum_ext. intros a Ha.
  transitivity (bigsum ra (fun b => msum d2 (fun i => kconj (amp us (singles i) a b) * amp zs (singles i) a b))%K).
  { apply bigsum_ext. intros b Hb. unfold gram. rewrite M, msums_singles. reflexivity. }
  rewrite <- msum_bigsum_swap. apply msum_ext. intros i Hi. apply bigsum_ext. intros b Hb.
  rewrite (arr_amp us la ra d2 a i b), A; auto.
Qed.
Lemma ovl_conj (xs ys : list (nd K)) la ra : map pdims xs = map pdims ys -> kconj (ovl la ra xs ys) = ovl la ra ys xs.
Proof.
  intros E. unfold ovl. rewrite bigsum_conj. apply bigsum_ext. intros a _. rewrite bigsum_conj. apply bigsum_ext. intros b _.
  unfold gram. rewrite E. rewrite msums_conj. apply msums_ext. intros is _. rewrite (kconj_mul K), (kconj_invol K). ring.
Qed.
(** The overlap of a state with another window and the target. *)
Lemma ip_proj (X1 ys X3 : list (nd K)) d1 d2 d3 la ra (T : list nat -> K) : ys <> [] -> mps_like X1 d1 -> mps_like ys d2 -> mps_like X3 d3 ->
  bonds X1 1 la -> bonds ys la ra -> bonds X3 ra 1 ->
  ip (d1 ++ d2 ++ d3) (fun is => amp (X1 ++ ys ++ X3) (singles is) 0 0) T =
  msum (la :: d2 ++ [ra]) (fun r => kconj (get (ltens_to_array ys) r) * proj_ent d1 d3 X1 X3 T r)%K.
Proof.
  intros N M1 M2 M3 B1 B2 B3. unfold ip. rewrite msum_app.
  transitivity (msum d1 (fun i1 => msum d2 (fun i2 => msum d3 (fun i3 =>
    T (i1 ++ i2 ++ i3) * kconj (psi_of X1 X3 la ra (get (ltens_to_array ys)) i1 i2 i3))))%K).
  { apply msum_ext. intros i1 H1. rewrite msum_app. apply msum_ext. intros i2 H2. apply msum_ext. intros i3 H3.
    rewrite (psi_window X1 ys X3 d1 d2 d3 la ra i1 i2 i3) by auto. ring. }
  pose proof (psi_sum d1 d2 d3 la ra X1 X3 (get (ltens_to_array ys)) (fun i => kconj (T i))) as H. apply (f_equal kconj) in H.
  rewrite !msum_conj in H. symmetry. etransitivity; [|etransitivity; [exact H|]].
  - apply msum_ext. intros r _. rewrite (kconj_mul K). f_equal. unfold proj_ent. rewrite msum_conj. apply msum_ext. intros i1 _.
    rewrite msum_conj. apply msum_ext. intros i3 _. rewrite (kconj_mul K (kconj _)), (kconj_invol K). ring.
  - apply msum_ext. intros i1 _. rewrite msum_conj. apply msum_ext. intros i2 _. rewrite msum_conj. apply msum_ext. intros i3 _.
    rewrite (kconj_mul K (kconj _)), (kconj_invol K). reflexivity.
Qed.
(** The overlap of two states that differ in the window. *)
Lemma ip_window (X1 ys us X3 : list (nd K)) d1 d2 d3 la ra : ys <> [] -> us <> [] -> mps_like X1 d1 -> mps_like ys d2 -> mps_like us d2 -> mps_like X3 d3 ->
  bonds X1 1 la -> bonds ys la ra -> bonds us la ra -> bonds X3 ra 1 -> Forall left_iso X1 -> Forall right_iso X3 ->
  ip (d1 ++ d2 ++ d3) (fun is => amp (X1 ++ ys ++ X3) (singles is) 0 0) (fun is => amp (X1 ++ us ++ X3) (singles is) 0 0) =
  msum (la :: d2 ++ [ra]) (fun r => kconj (get (ltens_to_array ys) r) * get (ltens_to_array us) r)%K.
Proof.
  intros Ny Nu M1 My Mu M3 B1 By Bu B3 I1 I3.
  rewrite <- (ovl_ip (mkLt (X1 ++ ys ++ X3) 0 0) (mkLt (X1 ++ us ++ X3) 0 0)) by (apply mps_like_join; [|apply mps_like_join]; assumption).
  cbn [lts]. rewrite (ovl_left X1 (ys ++ X3) (us ++ X3) 1 la 1 I1 B1).
  rewrite (ovl_right X3 ys us la ra 1 I3 B3 By Bu) by congruence.
  apply ovl_local; auto. intros a i b Ha Hi Hb. symmetry. apply (arr_amp us la ra d2); auto.
Qed.

(** ** Splitting the projected tensor *)
Variable qr : nd K -> res (nd K * nd K).
Hypothesis Hqr : qr_sound qr.
Variable svd : nd K -> res (nd K * list K * nd K).
Hypothesis Hsvd : svd_sound svd.
Notation F := (FQS svd (truncated_svd svd) qr).

Lemma split_total (t : nd K) la d2 ra rk : shp t = la :: d2 ++ [ra] -> ndwf t -> 0 < size (shp t) -> d2 <> [] -> 0 < rk ->
  outc F (do z <- from_array qr t (NDInt 1) true; compress_svd qr svd (truncated_svd svd) z (Some rk) None DNone true) (fun _ => True).
Proof.
  intros S W P N R. destruct (lt_ok_shape t la d2 ra S W) as (Lo & Ll & Lp & Lr).
  assert (Cs : concat (singles d2) = d2) by apply concat_singles.
  assert (X : outc (qr_fails qr) (extract_factors_int qr t 1) (fun ts =>
     chain_ok ts (ldim t) (rdim t) /\ map pdims ts = singles d2 /\ map ldim (tl ts) = qranks (ldim t) (singles d2) (rdim t) /\ Forall left_iso (removelast ts) /\
     forall is a b, Forall2 inr is (singles d2) -> a < ldim t -> b < rdim t -> amp ts is a b = ent t a (concat is) b)).
  { apply extract_int_spec; auto.
    - intros E. apply map_eq_nil in E. contradiction.
    - unfold singles. apply Forall_map. apply Forall_forall. reflexivity.
    - rewrite Cs. exact Lp. }
  unfold from_array. eapply outc_bind.
  - eapply outc_bind; [eapply outc_weaken; [exact X|intros Hf; left; exact Hf|intros z Hz; exact Hz]|].
    cbn beta. intros ts (C & M & _ & LI & _). rewrite Ll, Lr in C. pose proof C as (Nz & Bz & Pz).
    rewrite (lt_init_ok ts la ra); [|exact Nz|exact Bz|destruct ts; [contradiction|]; unfold cf_ok; cbn [length]; lia].
    apply outc_ok. instantiate (1 := fun z => chain_ok (lts z) la ra /\ cform_ok z /\ canon_true z). cbn beta.
    pose proof (left_form_mk ts Nz LI) as [Fz Tz]. split; [exact C|]. split; [|exact Tz].
    unfold cform_ok, llen, cf_ok; cbn [lts lcan rcan]; destruct ts; [contradiction|]; cbn [length]; lia.
  - cbn beta. intros z (C & Cz & Tz).
    eapply outc_weaken; [apply (compress_svd_spec svd (truncated_svd svd) Hsvd (truncated_svd_sound svd Hsvd) qr Hqr la ra z (Some rk) None DNone true C (cform_ok_wk z Cz) (fun _ => conj Cz Tz) R Logic.I ltac:(discriminate))|auto|auto].
Qed.

Lemma split_spec (t : nd K) la d2 ra v mr : shp t = la :: d2 ++ [ra] -> ndwf t -> 0 < size (shp t) -> length d2 = v -> 1 <= v -> 0 < mr ->
  outc F (split_t qr svd v mr t) (fun us => chain_ok us la ra /\ mps_like us d2 /\ Forall (fun k => k <= mr) (map ldim (tl us)) /\
    msum (la :: d2 ++ [ra]) (fun r => kconj (get (ltens_to_array us) r) * get t r)%K =
    msum (la :: d2 ++ [ra]) (fun r => kconj (get (ltens_to_array us) r) * get (ltens_to_array us) r)%K /\
    (v = 1 -> us = [t])).
Proof.
  intros S W P Lv Hv Hm. unfold split_t. destruct (Nat.eqb_spec v 1) as [->|Hv1].
  - apply outc_ok. destruct (lt_ok_shape t la d2 ra S W) as (Lo & Ll & Lp & Lr).
    split; [split; [discriminate|split; [cbn; auto|constructor; [exact P|constructor]]]|].
    split; [|split; [constructor|split; [reflexivity|auto]]].
    unfold mps_like. cbn. rewrite Lp. destruct d2 as [|d [|]]; try discriminate. reflexivity.
  - assert (Nd : d2 <> []) by (destruct d2; [cbn in Lv; lia|discriminate]).
    pose proof (split_total t la d2 ra mr S W P Nd Hm) as Tt.
    assert (E : (do z <- from_array qr t (NDInt 1) true; do p <- compress_svd qr svd (truncated_svd svd) z (Some mr) None DNone true; Ok (lts (fst p))) =
                (do p <- (do z <- from_array qr t (NDInt 1) true; compress_svd qr svd (truncated_svd svd) z (Some mr) None DNone true); Ok (lts (fst p)))).
    { destruct (from_array qr t (NDInt 1) true); reflexivity. }
    rewrite E. eapply outc_bind; [apply outc_and; [exact Tt|]|].
    + intros c Ec. exact (window_split qr Hqr svd Hsvd t la d2 ra mr c S W P Nd Hm Ec).
    + cbn beta. intros c (Cc & Mc & Rc & _ & _ & z & _ & Cz & Mz & Oz & Az). apply outc_ok.
      split; [exact Cc|]. split; [exact Mc|]. split; [exact Rc|]. split; [|contradiction].
      destruct Cc as (Nc & Bc & _).
      rewrite <- (ovl_local (lts (fst c)) (lts z) la ra d2 (get t) Nc Bc Mc) by (intros; apply Az; auto).
      rewrite <- (ovl_local (lts (fst c)) (lts (fst c)) la ra d2 (get (ltens_to_array (lts (fst c)))) Nc Bc Mc)
        by (intros; symmetry; apply (arr_amp _ la ra d2); auto).
      assert (Ep : map pdims (lts z) = map pdims (lts (fst c))) by congruence.
      rewrite <- (ovl_conj (lts z) (lts (fst c)) la ra Ep), Oz. apply ovl_conj. reflexivity.
Qed.
End Var.
