(** Statements about canonicalization and compression in terms of the dense array,
    and preservation of the recorded form along sequences of in-place operations. *)
From Verif Require Export PropAux PfUpdate.

Lemma in_firstn_skipn (A : Type) a b (l : list A) t : In t (firstn a (skipn b l)) -> In t l.
Proof.
  intros H. rewrite <- (firstn_skipn b l). apply in_or_app. right. rewrite <- (firstn_skipn a (skipn b l)). apply in_or_app. left. exact H.
Qed.

Section Hist.
Context {K : StarRing}.
Add Ring Kr : (k_ring K).

(** A valid MPArray without empty legs or bonds. *)
Definition mpa_pos (x : ltens K) : Prop := mpa_ok x /\ Forall (fun t => 0 < size (shp t)) (lts x).

Lemma pos_chain (x : ltens K) : mpa_pos x -> chain_ok (lts x) 1 1.
Proof. intros [[H1 H2] H3]. split; [exact H1|]. split; assumption. Qed.
Lemma chain_pos (x : ltens K) : chain_ok (lts x) 1 1 -> mpa_pos x.
Proof. intros [H1 [H2 H3]]. split; [split; assumption|exact H3]. Qed.

(** <x|y> of the dense arrays, and the squared Frobenius norm. *)
Definition inner_of (x y : ltens K) : K := msums (mshape x) (fun is => kconj (entry x is) * entry y is)%K.
Definition norm2_of (x : ltens K) : K := inner_of x x.
(** squared distance of the dense arrays *)
Definition dist2_of (x y : ltens K) : K :=
  msums (mshape x) (fun is => kconj (entry x is - entry y is) * (entry x is - entry y is))%K.

Lemma ovl_inner (x y : ltens K) : mpa_ok x -> mpa_ok y -> mshape y = mshape x -> ovl 1 1 (lts x) (lts y) = inner_of x y.
Proof.
  intros Hx Hy E. rewrite ovl_11. unfold gram, inner_of. apply msums_ext. intros is Hi.
  rewrite (entry_amp x is Hx Hi), (entry_amp y is Hy) by (rewrite E; exact Hi). reflexivity.
Qed.

Lemma same_amps_dense (x z : ltens K) : mpa_ok x -> mpa_ok z -> mshape z = mshape x -> same_amps 1 1 x z -> to_array z = to_array x.
Proof.
  intros Hx Hz E H. apply to_array_ext; [exact Hz|apply wf_to_array|rewrite shp_to_array by exact Hx; rewrite E; reflexivity|].
  intros is Hi. assert (Hi' : Forall2 inr is (mshape x)) by (rewrite <- E; exact Hi).
  rewrite H by (auto; exact Hi'). symmetry. apply get_to_array; assumption.
Qed.
Lemma sim_dense (x z : ltens K) : mpa_ok x -> sim 1 1 x z -> mpa_pos z /\ mshape z = mshape x /\ Forall2 le (ranks z) (ranks x) /\
  to_array z = to_array x /\ (canon_true x -> canon_true z) /\ (canon_dims x -> canon_dims z).
Proof.
  intros Hx [H1 [H2 [H3 [H4 H5]]]]. pose proof (chain_pos z H1) as Hz. split; [exact Hz|]. split; [exact H2|]. split; [exact H3|].
  split; [|exact H5]. apply same_amps_dense; auto. apply Hz.
Qed.
Lemma mpa_pos_bonds (x : ltens K) : mpa_pos x -> bonds_pos x.
Proof.
  intros [[Hne HB] HP]. unfold bonds_pos. rewrite Forall_forall in *. intros t Ht. specialize (HP t Ht).
  destruct (In_nth _ _ dummy Ht) as [k [Hk Ek]]. destruct (bonds_nth _ _ _ k HB Hk) as [Hw _]. rewrite Ek in Hw.
  pose proof (shp_lt t (proj2 Hw)) as ES. rewrite ES, size_cons, size_app, size_single in HP. nia.
Qed.

(** ‖x - z‖² = ‖x‖² - ‖z‖² when <x|z> = <z|z>. *)
Lemma pythagoras (x z : ltens K) : mshape z = mshape x -> inner_of x z = inner_of z z ->
  dist2_of x z = (norm2_of x - norm2_of z)%K.
Proof.
  intros E H. unfold norm2_of.
  assert (Hc : msums (mshape x) (fun is => kconj (entry z is) * entry x is)%K = inner_of z z).
  { transitivity (kconj (inner_of x z)).
    - unfold inner_of. rewrite msums_conj. apply msums_ext. intros is _. rewrite (kconj_mul K), (kconj_invol K). ring.
    - rewrite H. unfold inner_of. rewrite msums_conj. apply msums_ext. intros is _. rewrite (kconj_mul K), (kconj_invol K). ring. }
  unfold dist2_of.
  transitivity (inner_of x x + (inner_of z z + (- (1) * inner_of x z + - (1) * msums (mshape x) (fun is => kconj (entry z is) * entry x is))))%K.
  - unfold inner_of. rewrite E. rewrite <- !msums_mul_l, <- !msums_add. apply msums_ext. intros is _.
    replace (entry x is - entry z is)%K with (entry x is + - (1) * entry z is)%K at 1 by ring.
    rewrite (kconj_add K), (kconj_mul K). replace (kconj (- (1)))%K with (- (1) : K)%K; [ring|].
    rewrite kconj_opp, kconj_1. reflexivity.
  - rewrite Hc, H. ring.
Qed.

Section QR.
Variable qr : nd K -> res (nd K * nd K).
Hypothesis Hqr : qr_sound qr.

Theorem norm_dense (x : ltens K) : mpa_pos x -> cform_ok x -> canon_true x ->
  outc (qr_fails qr) (norm_sq qr x) (fun p => fst p = norm2_of x /\
    mpa_pos (snd p) /\ cform_ok (snd p) /\ canon_true (snd p) /\ mshape (snd p) = mshape x /\ to_array (snd p) = to_array x /\
    (rcan (snd p) = 1%Z \/ lcan (snd p) = (Z.of_nat (llen x) - 1)%Z)).
Proof.
  intros Hx Hc Ht. eapply outc_weaken; [apply (norm_spec qr Hqr 1 1 x (pos_chain _ Hx) Hc Ht)|auto|].
  intros [v z] [E1 [E2 [E3 E4]]]. cbn [fst snd] in *. destruct Hx as [Hx Hp]. rewrite (ovl_inner x x Hx Hx eq_refl) in E1.
  destruct (sim_dense x z Hx E2) as [S1 [S2 [_ [S3 [S4 _]]]]]. repeat (split; [auto|]). exact E4.
Qed.

Lemma madd_pos (x y d : ltens K) : mpa_pos x -> mpa_pos y -> mshape x = mshape y -> madd x y = Ok d -> mpa_pos d.
Proof.
  intros Hx Hy E Ed. destruct (madd_spec x y (proj1 Hx) (proj1 Hy) E) as [d' [Ed' [Hd [Sd [Rd _]]]]].
  rewrite Ed in Ed'. injection Ed' as <-. split; [exact Hd|].
  pose proof (mpa_pos_bonds x Hx) as Px. destruct Hx as [[Hne HB] HP].
  assert (LS : length (lts d) = length (lts x)).
  { change (llen d = llen x). rewrite <- (mshape_length d), <- (mshape_length x), Sd. reflexivity. }
  rewrite Forall_forall. intros t Ht. destruct (In_nth _ _ dummy Ht) as [k [Hk Ek]].
  destruct Hd as [_ HBd]. destruct (bonds_nth _ _ _ k HBd Hk) as [Hw _]. rewrite Ek in Hw.
  assert (Hkx : k < length (lts x)) by lia.
  assert (Ep : pdims t = pdims (nth k (lts x) dummy)).
  { rewrite <- Ek. unfold mshape in Sd. apply (f_equal (fun l => nth k l [])) in Sd.
    rewrite (map_nth_lt _ _ pdims (lts d) k dummy []) in Sd by exact Hk.
    rewrite (map_nth_lt _ _ pdims (lts x) k dummy []) in Sd by exact Hkx. exact Sd. }
  pose proof (nth_In (lts x) dummy Hkx) as Hin. rewrite Forall_forall in HP. specialize (HP _ Hin).
  destruct (bonds_nth _ _ _ k HB Hkx) as [Hwx _].
  rewrite (shp_lt _ (proj2 Hwx)), size_cons, size_app, size_single in HP.
  rewrite (shp_lt _ (proj2 Hw)), size_cons, size_app, size_single, Ep.
  assert (D : 0 < ldim t /\ 0 < rdim t).
  { assert (RP : Forall (lt 0) (ranks d)).
    { rewrite Rd. unfold bonds_pos in Px. clear - Px HB. unfold ranks.
      assert (G : forall a b, Forall (lt 0) a -> Forall (lt 0) (map (fun p => fst p + snd p) (combine a b))).
      { induction a as [|u a IH]; intros [|v b] H; cbn; constructor; inversion H; subst; [lia|apply IH; assumption]. }
      apply G. rewrite Forall_map. rewrite Forall_forall in *. intros u Hu. apply Px. destruct (lts x); [destruct Hu|right; exact Hu]. }
    unfold ranks in RP. rewrite Forall_map in RP. clear - RP HBd Hk Ek. revert RP HBd. subst t.
    destruct (lts d) as [|u us]; [cbn in Hk; lia|]. cbn [tl]. intros RP HBd.
    assert (G : forall (us : list (nd K)) l, 0 < l -> bonds us l 1 -> Forall (fun u => 0 < ldim u) (tl us) -> forall k, k < length us -> 0 < ldim (nth k us dummy) /\ 0 < rdim (nth k us dummy)).
    { clear. induction us as [|u us IH]; intros l Hl B F k Hk; [cbn in Hk; lia|]. destruct B as [Hu [El B]].
      assert (0 < rdim u). { destruct us as [|v vs]; [cbn in B; lia|]. destruct B as [_ [E _]]. cbn [tl] in F. inversion F; subst. lia. }
      destruct k as [|k]; [cbn [nth]; lia|]. cbn [nth]. apply (IH (rdim u)); auto; [|cbn in Hk; lia].
      destruct us as [|v vs]; [constructor|]. cbn [tl] in F. inversion F; assumption. }
    exact (G (u :: us) 1 ltac:(lia) HBd RP k Hk). }
  destruct D. nia.
Qed.

Lemma mmul_pos (x z : ltens K) f : mpa_pos x -> cform_ok x -> mmul x f = Ok z -> mpa_pos z.
Proof.
  intros [Hx Hp] Hc E. destruct (mmul_spec x f Hx Hc) as [z' [E' [Hz _]]]. rewrite E in E'. injection E' as <-. split; [exact Hz|].
  unfold mmul in E. destruct Hc as [[H1 H2] _]. unfold llen in *. set (k := Z.to_nat (lcan x)) in *.
  assert (Hk : k < length (lts x)) by lia. assert (Ek : lcan x = Z.of_nat k) by lia. rewrite Ek in E.
  rewrite (pyget_in _ _ k dummy Hk) in E. cbn [bind] in E. apply lt_init_inv in E. destruct E as [E _]. rewrite E.
  apply Forall_app. unfold pos in Hp. rewrite Forall_forall in Hp.
  split; [|constructor]; [rewrite Forall_forall; intros t Ht; apply Hp; apply (in_firstn_skipn _ _ _ _ _ Ht)|cbn; apply (Hp _ (nth_In _ dummy Hk))|].
  rewrite Forall_forall. intros t Ht. apply Hp. rewrite <- (firstn_skipn (pyclamp (length (lts x)) (Z.of_nat k + 1)) (lts x)).
  apply in_or_app. right. exact Ht.
Qed.

(** normdist: the norm of the difference, i.e. the distance of the dense arrays. *)
Theorem normdist_dense (x y : ltens K) : mpa_pos x -> mpa_pos y -> cform_ok y -> mshape x = mshape y ->
  outc (qr_fails qr) (normdist_sq qr x y) (fun v => v = dist2_of x y).
Proof.
  intros Hx Hy Hc E. unfold normdist_sq, msub.
  destruct (mmul_spec y (kopp k1) (proj1 Hy) Hc) as [w [Ew [Hw [Sw [_ [_ [_ Vw]]]]]]]. rewrite Ew. cbn [bind].
  pose proof (mmul_pos y w _ Hy Hc Ew) as Pw.
  destruct (madd_spec x w (proj1 Hx) Hw ltac:(congruence)) as [d [Ed [Hd [Sd [_ [Ld [Rd Vd]]]]]]]. rewrite Ed. cbn [bind].
  pose proof (madd_pos x w d Hx Pw ltac:(congruence) Ed) as Pd.
  assert (L : llen d = llen x) by (rewrite <- (mshape_length d), <- (mshape_length x), Sd; reflexivity).
  assert (L0 : 0 < llen x) by (destruct Hx as [[Hx _] _]; unfold llen; destruct (lts x); [congruence|cbn; lia]).
  eapply outc_bind.
  - apply norm_dense; [exact Pd| |].
    + unfold cform_ok, cf_ok. rewrite Ld, Rd, L. lia.
    + unfold canon_true. rewrite Ld, Rd, L. split; intros j Hj1 Hj2; lia.
  - intros [v z] [Ev _]. cbn [fst] in *. apply outc_ok. rewrite Ev. unfold norm2_of, inner_of, dist2_of. rewrite Sd.
    apply msums_ext. intros is Hi. rewrite (entry_amp d is Hd) by (rewrite Sd; exact Hi). rewrite Vd by exact Hi.
    rewrite Vw by (rewrite <- E; exact Hi). rewrite (entry_amp x is (proj1 Hx) Hi), (entry_amp y is (proj1 Hy)) by (rewrite <- E; exact Hi).
    replace (amp (lts x) is 0 0 + - (1) * amp (lts y) is 0 0)%K with (amp (lts x) is 0 0 - amp (lts y) is 0 0)%K by ring. reflexivity.
Qed.

(** ** Histories of in-place operations *)
Variable svd : nd K -> res (nd K * list K * nd K).
Variable svdfunc : nd K -> nat -> res (nd K * list K * nd K).
Hypothesis Hsvd : svd_sound svd.
Hypothesis Hts : tsvd_sound svdfunc.

Inductive hop : Type :=
| HCanon (left right : carg)
| HNorm
| HSvals
| HMul (f : K)
| HCompress (rank : option nat) (relerr : option (list K -> nat)) (dir : dirarg) (canon : bool)
| HUpd (k : Z) (t : nd K) (flag : option string)
| HUpds (s : pyslc) (ts : list (nd K)) (flags : canon_arg).

(** The array after the call. *)
Definition hstep (x : ltens K) (op : hop) : res (ltens K) :=
  match op with
  | HCanon l r => canonicalize qr x l r
  | HNorm => do p <- norm_sq qr x; Ok (snd p)
  | HSvals => do p <- singularvals qr svd x; Ok (snd p)
  | HMul f => mimul x f
  | HCompress rank relerr dir canon => do p <- compress_svd qr svd svdfunc x rank relerr dir canon; Ok (fst p)
  | HUpd k t f => lt_update_int x k t f
  | HUpds s ts fs => lt_update_slice x s ts fs
  end.

(** What is asked of the arguments: a positive rank, a threshold that keeps at
    least one singular value; a site is replaced by a non-empty tensor under a
    non-negative index, its flag is true, and no flag is given while the two
    regions touch. *)
Definition hop_ok (x : ltens K) (op : hop) : Prop :=
  match op with
  | HCompress rank relerr dir canon => rank_pos rank /\ relerr_ok relerr
  | HUpd k t f => (0 <= k)%Z /\ ndwf t /\ 0 < size (shp t) /\ honest f t /\
                  (flag_is f "left" = true \/ flag_is f "right" = true -> cform_lt x)
  | HUpds s ts fs => exists (k : nat) fl, s = mkSlice (Some (Z.of_nat k)) (Some (Z.of_nat (k + length ts))) None /\
                  k + length ts <= llen x /\ ts <> [] /\
                  fs = CSeq fl /\ length fl = length ts /\ Forall ndwf ts /\ pos ts /\ Forall (fun t => 2 <= ndim t) ts /\
                  Forall2 honest fl ts /\ flags_safe (lcan x) (rcan x) (Z.of_nat k) fl
  | _ => True
  end.

Definition good (x : ltens K) : Prop := mpa_pos x /\ cform_wk x /\ canon_true x.

Lemma good_sim (x z : ltens K) : good x -> sim 1 1 x z -> cform_wk z -> good z.
Proof. intros [Hx [_ Ht]] Hs Hw. destruct (sim_dense x z (proj1 Hx) Hs) as [H1 [_ [_ [_ [H2 _]]]]]. split; [exact H1|]. split; auto. Qed.
Lemma cform_ok_weak (x : ltens K) : cform_ok x -> cform_wk x.
Proof. unfold cform_ok, cf_ok, cform_wk. lia. Qed.

Lemma canonicalize_sim (x z : ltens K) l r : mpa_pos x -> cform_wk x -> canonicalize qr x l r = Ok z -> sim 1 1 x z /\ cform_wk z.
Proof.
  intros Hx Hw E.
  assert (D : (l = CANone /\ r = CANone) \/ ~ (l = CANone /\ r = CANone)).
  { destruct l; try (right; intros [? ?]; discriminate). destruct r; try (right; intros [? ?]; discriminate). left; auto. }
  destruct D as [[-> ->]|D].
  - pose proof (outc_inv _ _ _ _ (canonicalize_default_spec qr Hqr 1 1 x (pos_chain _ Hx) Hw) E) as [H1 [H2 _]]. auto.
  - assert (Hne : lts x <> []) by apply Hx.
    destruct (canonicalize_errors qr x l r Hne D) as [E1 E2].
    set (n := Z.of_nat (llen x)) in *. set (tl := left_target n l) in *. set (tr := right_target n r) in *.
    destruct (Z_le_dec 0 tl); [|rewrite E1 in E by lia; discriminate].
    destruct (Z_le_dec tl n); [|rewrite E1 in E by lia; discriminate].
    destruct (Z_le_dec 0 tr); [|rewrite E1 in E by lia; discriminate].
    destruct (Z_le_dec tr n); [|rewrite E1 in E by lia; discriminate].
    destruct (Z_lt_dec tl tr); [|rewrite E2 in E by lia; discriminate].
    pose proof (canonicalize_spec qr Hqr 1 1 x l r (pos_chain _ Hx) Hw D) as HS. cbv zeta in HS.
    fold n in HS. fold tl in HS. fold tr in HS. pose proof (outc_inv _ _ _ _ (HS ltac:(lia) ltac:(lia) ltac:(lia)) E) as [H1 [H2 _]]. auto.
Qed.
Lemma canonicalize_good (x z : ltens K) l r : good x -> canonicalize qr x l r = Ok z -> good z /\ mshape z = mshape x.
Proof.
  intros Hg E. pose proof Hg as [Hx [Hw Ht]]. destruct (canonicalize_sim x z l r Hx Hw E) as [H1 H2].
  split; [exact (good_sim x z Hg H1 H2)|apply H1].
Qed.

Lemma norm_good (x z : ltens K) v : good x -> norm_sq qr x = Ok (v, z) -> good z /\ mshape z = mshape x.
Proof.
  intros Hg E. unfold norm_sq in E. destruct (canonicalize qr x CANone CANone) as [y|e] eqn:Ey; cbn [bind] in E; [|discriminate].
  assert (z = y).
  { destruct (canonical_form y) as [cl cr]. destruct (cr =? 1)%Z; [|destruct (cl =? _)%Z; [|discriminate]].
    - destruct (pyget (lts y) 0); cbn [bind] in E; [|discriminate]. congruence.
    - destruct (pyget (lts y) (-1)); cbn [bind] in E; [|discriminate]. congruence. }
  subst z. exact (canonicalize_good x y _ _ Hg Ey).
Qed.

Lemma pos_set_nth k t (ts : list (nd K)) : pos ts -> 0 < size (shp t) -> pos (set_nth k t ts).
Proof.
  unfold pos. intros H Ht. revert k. induction H as [|u us Hu HF IH]; intros [|k]; cbn [set_nth]; constructor; auto.
Qed.

Lemma update_good (x z : ltens K) k t f : good x -> hop_ok x (HUpd k t f) -> lt_update_int x k t f = Ok z -> good z.
Proof.
  intros [[Hx Hp] [Hw Ht]] [Hk [Hwf [Hs [Hh Hf]]]] E.
  destruct (Z_lt_dec k (Z.of_nat (llen x))) as [Hlt|Hge].
  2:{ rewrite update_int_range in E by lia. discriminate. }
  replace k with (Z.of_nat (Z.to_nat k)) in E by lia. set (j := Z.to_nat k) in *. assert (Hj : j < llen x) by lia.
  destruct (update_int_spec x j t f Hx Hj Hwf) as [S1 S2].
  assert (D : (2 <= ndim t /\ ldim t = ldim (nth j (lts x) dummy) /\ rdim t = rdim (nth j (lts x) dummy)) \/
              ~ (2 <= ndim t /\ ldim t = ldim (nth j (lts x) dummy) /\ rdim t = rdim (nth j (lts x) dummy))) by lia.
  destruct D as [[D1 [D2 D3]]|D]; [|rewrite S2 in E by exact D; discriminate].
  destruct (S1 D1 D2 D3) as [z' [E' [Hz [El [_ [_ [Hw' Ht']]]]]]]. rewrite E in E'. injection E' as <-.
  split; [split; [exact Hz|rewrite El; apply pos_set_nth; assumption]|]. split; [auto|]. apply Ht'; auto.
Qed.

Lemma updates_good (x z : ltens K) s ts fs : good x -> hop_ok x (HUpds s ts fs) -> lt_update_slice x s ts fs = Ok z -> good z.
Proof.
  intros [[Hx Hp] [Hw Ht]] [k [fl [Es [Hl [Hne [Ef [Lf [Hwf [Hps [Hd [Hh Hsafe]]]]]]]]]]] E. subst s fs.
  assert (Ho : Forall lt_ok ts).
  { rewrite Forall_forall in *. intros t Hin. split; auto. }
  destruct (update_slice_accepted x ts _ k z Hx Hl Ho Hne E) as [a [b [By Bt]]].
  set (ys := firstn (length ts) (skipn k (lts x))) in *. unfold llen in Hl.
  assert (EX : lts x = firstn k (lts x) ++ ys ++ skipn (k + length ts) (lts x)).
  { unfold ys. rewrite <- skipn_add. rewrite firstn_skipn. symmetry. apply firstn_skipn. }
  assert (L1 : length (firstn k (lts x)) = k) by (rewrite firstn_length; lia).
  assert (Ly : length ys = length ts) by (unfold ys; rewrite firstn_length, skipn_length; lia).
  destruct x as [xs l r]. cbn [lts lcan rcan] in *.
  set (x1 := firstn k xs) in *. set (x2 := skipn (k + length ts) xs) in *. rewrite EX in Hx, Hw, Ht, E.
  assert (Hny : ys <> []) by (intros E0; rewrite E0 in Ly; destruct ts; [congruence|discriminate]).
  destruct (update_slice_spec x1 x2 ys ts l r (CSeq fl) fl a b Hx Hny (eq_sym Ly) By Bt eq_refl Lf) as [z' [E' [Hz [El [_ [Hw' Ht']]]]]].
  cbv zeta in E'. rewrite L1, Ly in E'. replace (Z.of_nat k + Z.of_nat (length ts))%Z with (Z.of_nat (k + length ts)) in E' by lia.
  rewrite E in E'. injection E' as <-. cbv zeta in Ht'. rewrite L1 in Ht'.
  split; [split; [exact Hz|]|split; [auto|apply Ht'; auto]]. rewrite El. rewrite EX in Hp. apply Forall_app in Hp. destruct Hp as [P1 Hp]. apply Forall_app in Hp. destruct Hp as [_ P2].
  apply Forall_app. split; [exact P1|]. apply Forall_app. split; [exact Hps|exact P2].
Qed.

Lemma mimul_good (x z : ltens K) f : good x -> mimul x f = Ok z -> good z /\ mshape z = mshape x.
Proof.
  intros Hg E. pose proof Hg as [[Hx Hp] [[Hw1 Hw2] Ht]]. unfold mimul in E.
  destruct (pyget (lts x) (lcan x)) as [t|e] eqn:Et; cbn [bind] in E; [|discriminate].
  assert (Hlt : (lcan x < Z.of_nat (llen x))%Z).
  { destruct (Z_lt_dec (lcan x) (Z.of_nat (llen x))) as [H|H]; [exact H|]. rewrite update_int_range in E by lia. discriminate. }
  set (j := Z.to_nat (lcan x)) in *. assert (Ej : lcan x = Z.of_nat j) by lia. assert (Hj : j < llen x) by lia.
  rewrite Ej, (pyget_in _ _ j dummy Hj) in Et. injection Et as <-. rewrite Ej in E.
  destruct (bonds_nth _ _ _ j (proj2 Hx) Hj) as [Hw _].
  assert (Hwf : ndwf (nscale f (nth j (lts x) dummy))) by apply (lt_ok_nscale f _ Hw).
  destruct (update_int_spec x j (nscale f (nth j (lts x) dummy)) None Hx Hj Hwf) as [S1 _].
  destruct (S1 (proj2 Hw) eq_refl eq_refl) as [z' [E' [Hz [El [_ [_ [Hw' Ht']]]]]]]. rewrite E in E'. injection E' as <-.
  unfold pos in Hp. split; [split; [split; [exact Hz|]|split; [apply Hw'; split; assumption|]]|].
  - rewrite El. apply pos_set_nth; [exact Hp|]. rewrite Forall_forall in Hp. apply (Hp _ (nth_In _ dummy Hj)).
  - apply Ht'; [exact Ht| |]; [split; discriminate|intros [H|H]; discriminate].
  - unfold mshape. rewrite El. apply map_set_nth with (d := dummy). reflexivity.
Qed.

Lemma compress_good (x z : ltens K) rank relerr dir canon ov : good x -> rank_pos rank -> relerr_ok relerr ->
  compress_svd qr svd svdfunc x rank relerr dir canon = Ok (z, ov) -> good z /\ mshape z = mshape x.
Proof.
  intros Hg Hr Hre E. pose proof Hg as [Hx [Hw Ht]].
  destruct (Nat.eq_dec (llen x) 1) as [E1|E1].
  - unfold compress_svd in E. rewrite E1 in E. cbn [Nat.eqb] in E. destruct (norm_sq qr x) as [[v y]|e] eqn:En; cbn [bind fst snd] in E; [|discriminate].
    injection E as <- <-. exact (norm_good x y v Hg En).
  - assert (L2 : 2 <= llen x).
    { destruct Hx as [[Hne _] _]. unfold llen in *. destruct (lts x) as [|a [|b l]]; [congruence|cbn in E1; lia|cbn; lia]. }
    assert (Hd : dir <> DOther).
    { intros ->. destruct (compress_svd_errors svd svdfunc qr x rank relerr canon L2) as [_ EE]. rewrite EE in E; discriminate. }
    assert (H := compress_svd_spec svd svdfunc Hsvd Hts qr Hqr 1 1 x rank relerr dir canon (pos_chain _ Hx) Hw
           (fun e => False_ind _ (E1 e)) Hr Hre Hd). apply (outc_inv _ _ _ _ H) in E. cbn beta in E. destruct E as [H1 [H2 [_ [_ [H3 [H4 _]]]]]].
    split; [split; [exact (chain_pos z H1)|split; [apply cform_ok_weak; exact H3|exact H4]]|exact H2].
Qed.

Lemma svals_good (x z : ltens K) ss : good x -> singularvals qr svd x = Ok (ss, z) -> good z /\ mshape z = mshape x.
Proof.
  intros Hg E. pose proof Hg as [Hx [Hw Ht]]. destruct (Nat.eq_dec (llen x) 1) as [E1|E1].
  - unfold singularvals in E. rewrite E1 in E. cbn [Nat.eqb] in E. injection E as <- <-. auto.
  - assert (2 <= llen x). { destruct Hx as [[Hne _] _]. unfold llen in *. destruct (lts x) as [|a [|b l]]; [congruence|cbn in E1; lia|cbn; lia]. }
    pose proof (outc_inv _ _ _ _ (singularvals_spec qr svd Hqr Hsvd 1 1 x (pos_chain _ Hx) Hw Ht H) E) as H'.
    cbn beta in H'. destruct H' as [_ [_ [H1 [H2 [_ [_ [H3 H4]]]]]]]. split; [split; [exact (chain_pos z H1)|split; assumption]|exact H2].
Qed.

Theorem hstep_good (x z : ltens K) op : good x -> hop_ok x op -> hstep x op = Ok z -> good z.
Proof.
  intros Hg Ho E. destruct op as [l r| | |f|rank relerr dir canon|k t f|s ts fs]; cbn [hstep] in E.
  - apply (canonicalize_good x z l r Hg E).
  - destruct (norm_sq qr x) as [[v y]|e] eqn:En; cbn [bind snd] in E; [|discriminate]. injection E as <-. apply (norm_good x y v Hg En).
  - destruct (singularvals qr svd x) as [[v y]|e] eqn:En; cbn [bind snd] in E; [|discriminate]. injection E as <-. apply (svals_good x y v Hg En).
  - apply (mimul_good x z f Hg E).
  - destruct (compress_svd qr svd svdfunc x rank relerr dir canon) as [[y v]|e] eqn:En; cbn [bind fst] in E; [|discriminate]. injection E as <-.
    destruct Ho. eapply compress_good; eauto.
  - exact (update_good x z k t f Hg Ho E).
  - exact (updates_good x z s ts fs Hg Ho E).
Qed.

(** A sequence of calls that all return, every one with arguments as required. *)
Inductive hist : ltens K -> list hop -> ltens K -> Prop :=
| hist_nil x : hist x [] x
| hist_cons x op y ops z : hop_ok x op -> hstep x op = Ok y -> hist y ops z -> hist x (op :: ops) z.

Theorem hist_good (x z : ltens K) ops : good x -> hist x ops z -> good z.
Proof. intros Hg H. induction H as [x|x op y ops z Ho E H IH]; [exact Hg|]. apply IH. exact (hstep_good x y op Hg Ho E). Qed.
End QR.
End Hist.
