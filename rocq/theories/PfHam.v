(** Facts about the dense random arrays and [random_local_ham] of factory.py. *)
From Verif Require Export PfMpdo.
Open Scope nat_scope.

Section Ham.
Context {K : StarRing}.
Add Ring Kr : (k_ring K).
Variable qr : nd K -> res (nd K * nd K).
Variable sqrt_ inv : K -> K.
Hypothesis Hqr : qr_sound qr.

Lemma size_rep d n : size (repeat d n) = Nat.pow d n.
Proof. induction n as [|n IH]; [apply size_nil|]. cbn [repeat]. rewrite size_cons, IH. reflexivity. Qed.
Lemma rep_two (d n : nat) : repeat d (2 * n) = repeat d n ++ repeat d n.
Proof. rewrite <- repeat_app. f_equal. lia. Qed.
Lemma abs2_flat (a : nd K) : abs2 a = bigsum (size (shp a)) (fun i => kconj (nth i (dat a) k0) * nth i (dat a) k0)%K.
Proof.
  unfold abs2. rewrite msum_flat. apply bigsum_ext. intros i Hi. unfold get. rewrite ravel_unravel by exact Hi. reflexivity.
Qed.
Lemma abs2_reshape (a : nd K) sh : size sh = size (shp a) -> abs2 (reshape a sh) = abs2 a.
Proof. intros E. rewrite !abs2_flat. unfold reshape. cbn [shp dat]. rewrite E. reflexivity. Qed.
Lemma abs2_nscale c (a : nd K) : ndwf a -> abs2 (nscale c a) = (kconj c * c * abs2 a)%K.
Proof.
  intros W. unfold abs2. change (shp (nscale c a)) with (shp a). rewrite <- msum_mul_l. apply msum_ext. intros i Hi. rewrite get_nscale. rewrite (kconj_mul K). ring.
Qed.

(** A matrix of size [d^n], reshaped to [2n] legs. *)
Lemma get_mat_legs (a : nd K) d n is js : shp a = [Nat.pow d n; Nat.pow d n] -> inr is (repeat d n) -> inr js (repeat d n) ->
  get (reshape a (repeat d (2 * n))) (is ++ js) = get a [ravel (repeat d n) is; ravel (repeat d n) js].
Proof.
  intros Es Hi Hj. apply get_reshape'. rewrite rep_two, ravel_app by exact Hi. rewrite Es. cbn [ravel]. rewrite size_rep, size_single, size_nil. lia.
Qed.

(** ** _random_vec *)
Theorem random_vec_spec s k n d : stream_ok s ->
  let f := inv (sqrt_ (abs2 (s k (repeat d n)))) in
  ndwf (random_vec sqrt_ inv s k n d) /\ shp (random_vec sqrt_ inv s k n d) = repeat d n /\
  (forall is, get (random_vec sqrt_ inv s k n d) is = (f * get (s k (repeat d n)) is)%K) /\
  ((kconj f * f * abs2 (s k (repeat d n)))%K = k1 -> abs2 (random_vec sqrt_ inv s k n d) = k1).
Proof.
  intros Hs f. destruct (Hs k (repeat d n)) as [Es Ws]. unfold random_vec. fold f.
  split; [apply wf_nscale; exact Ws|]. split; [exact Es|]. split; [intros; apply get_nscale|]. intros E. rewrite abs2_nscale by exact Ws. exact E.
Qed.

(** ** _random_op *)
Definition op_raw (s : stream) (k n d : nat) (h : bool) (i j : nat) : K :=
  let a := s k [Nat.pow d n; Nat.pow d n] in if h then (get a [i; j] + kconj (get a [j; i]))%K else get a [i; j].
Definition op_norm2 (s : stream) (k n d : nat) (h : bool) : K :=
  bigsum (Nat.pow d n) (fun i => bigsum (Nat.pow d n) (fun j => kconj (op_raw s k n d h i j) * op_raw s k n d h i j))%K.
Definition op_factor s k n d h : K := inv (sqrt_ (op_norm2 s k n d h)).
Theorem random_op_spec s k n d h nm : stream_ok s -> 
  let z := random_op sqrt_ inv s k n d h nm in
  ndwf z /\ shp z = repeat d (2 * n) /\
  (forall is js, inr is (repeat d n) -> inr js (repeat d n) ->
     get z (is ++ js) = ((if nm then op_factor s k n d h else k1) * op_raw s k n d h (ravel (repeat d n) is) (ravel (repeat d n) js))%K) /\
  (nm = true -> (kconj (op_factor s k n d h) * op_factor s k n d h * op_norm2 s k n d h)%K = k1 -> abs2 z = k1) /\
  (h = true -> (nm = true -> kconj (op_factor s k n d h) = op_factor s k n d h) ->
     forall is js, inr is (repeat d n) -> inr js (repeat d n) -> get z (is ++ js) = kconj (get z (js ++ is))).
Proof.
  intros Hs z. set (N := Nat.pow d n) in *. destruct (Hs k [N; N]) as [Es Ws]. set (a := s k [N; N]) in *.
  set (op1 := if h then nadd a (nconj (transpose a [1; 0])) else a).
  assert (S1 : shp op1 = [N; N]) by (unfold op1; destruct h; [unfold nadd; cbn [shp tab]; exact Es|exact Es]).
  assert (W1 : ndwf op1) by (unfold op1; destruct h; [apply wf_tab|exact Ws]).
  assert (G1 : forall i j, i < N -> j < N -> get op1 [i; j] = op_raw s k n d h i j).
  { intros i j Hi Hj. unfold op1, op_raw. fold N. fold a. destruct h; [|reflexivity]. rewrite get_nadd by (rewrite Es; apply inr2; assumption). f_equal. rewrite get_nconj. f_equal.
    unfold transpose. rewrite Es. rewrite get_tab by (apply inr2; assumption). reflexivity. }
  assert (N1 : abs2 op1 = op_norm2 s k n d h).
  { unfold abs2, op_norm2. rewrite S1. cbn [msum]. fold N. apply bigsum_ext. intros i Hi. apply bigsum_ext. intros j Hj. rewrite G1 by assumption. reflexivity. }
  set (op2 := if nm then nscale (inv (sqrt_ (abs2 op1))) op1 else op1).
  assert (S2 : shp op2 = [N; N]) by (unfold op2; destruct nm; exact S1).
  assert (W2 : ndwf op2) by (unfold op2; destruct nm; [apply wf_nscale|]; exact W1).
  assert (G2 : forall i j, i < N -> j < N -> get op2 [i; j] = ((if nm then op_factor s k n d h else k1) * op_raw s k n d h i j)%K).
  { intros i j Hi Hj. unfold op2, op_factor. rewrite <- N1. destruct nm; [rewrite get_nscale|]; rewrite G1 by assumption; ring. }
  assert (Ez : z = reshape op2 (repeat d (2 * n))) by reflexivity.
  assert (Sz : size (repeat d (2 * n)) = size (shp op2)) by (rewrite S2, size_rep, size2; unfold N; rewrite <- Nat.pow_add_r; f_equal; lia).
  assert (HR : forall is, inr is (repeat d n) -> ravel (repeat d n) is < N) by (intros is Hi; unfold N; rewrite <- size_rep; apply ravel_lt; exact Hi).
  assert (GZ : forall is js, inr is (repeat d n) -> inr js (repeat d n) ->
     get z (is ++ js) = ((if nm then op_factor s k n d h else k1) * op_raw s k n d h (ravel (repeat d n) is) (ravel (repeat d n) js))%K).
  { intros is js Hi Hj. rewrite Ez, get_mat_legs by assumption. apply G2; apply HR; assumption. }
  rewrite Ez at 1 2. split; [apply wf_reshape; [exact W2|exact Sz]|]. split; [reflexivity|]. split; [exact GZ|]. split.
  - intros E H1. rewrite Ez, abs2_reshape by exact Sz. unfold op2. rewrite E. rewrite abs2_nscale by exact W1. rewrite N1. exact H1.
  - intros E Hf is js Hi Hj. rewrite !GZ by assumption. rewrite (kconj_mul K). f_equal.
    + destruct nm; [symmetry; apply Hf; reflexivity|symmetry; apply kconj_1].
    + unfold op_raw. rewrite E. rewrite (kconj_add K), (kconj_invol K). ring.
Qed.

(** ** _random_state *)
Definition gram (s : stream) (k n d : nat) (i j : nat) : K :=
  let a := s k [Nat.pow d n; Nat.pow d n] in bigsum (Nat.pow d n) (fun c => kconj (get a [c; i]) * get a [c; j])%K.
Theorem random_state_spec s k n d : stream_ok s ->
  let z := random_state inv s k n d in
  let t := bigsum (Nat.pow d n) (fun i => gram s k n d i i) in
  ndwf z /\ shp z = repeat d (2 * n) /\
  (forall is js, inr is (repeat d n) -> inr js (repeat d n) ->
     get z (is ++ js) = (inv t * gram s k n d (ravel (repeat d n) is) (ravel (repeat d n) js))%K) /\
  ((inv t * t)%K = k1 -> msum (repeat d n) (fun is => get z (is ++ is)) = k1).
Proof.
  intros Hs z t. set (N := Nat.pow d n) in *. destruct (Hs k [N; N]) as [Es Ws]. set (m := s k [N; N]) in *.
  set (mh := nconj (transpose m [1; 0])). assert (Sh : shp mh = [N; N]) by (unfold mh; cbn [shp nconj]; rewrite shp_transpose, Es; reflexivity).
  set (rho := matdot mh m). assert (Sr : shp rho = [N; N]) by (apply (shp_matdot mh m [N] N N [N]); assumption).
  assert (Wr : ndwf rho) by apply wf_tensordot.
  assert (Gr : forall i j, i < N -> j < N -> get rho [i; j] = gram s k n d i j).
  { intros i j Hi Hj. unfold rho. rewrite (get_matdot mh m [N] N N [N] [i] [j] Sh Es ltac:(apply inr_single; exact Hi) ltac:(apply inr_single; exact Hj) : get (matdot mh m) [i; j] = _).
    unfold gram. fold N. fold m. apply bigsum_ext. intros c Hc. f_equal. unfold mh. rewrite get_nconj. f_equal. unfold transpose. rewrite Es. cbn [app]. rewrite get_tab by (apply inr2; assumption). reflexivity. }
  assert (Et : get (trace_axes rho 0 1) [] = t).
  { unfold trace_axes. rewrite get_tab by (unfold ndim; rewrite Sr; cbn; constructor). unfold ndim. rewrite Sr. cbn [nth length]. rewrite Nat.min_id. unfold t. apply bigsum_ext. intros i Hi.
    rewrite <- (Gr i i Hi Hi). reflexivity. }
  assert (Ez : z = reshape (nscale (inv t) rho) (repeat d (2 * n))) by (unfold z, random_state; fold N; fold m; fold mh; fold rho; rewrite Et; reflexivity).
  assert (Sz : size (repeat d (2 * n)) = size (shp (nscale (inv t) rho))) by (cbn [shp nscale]; rewrite Sr, size_rep, size2; unfold N; rewrite <- Nat.pow_add_r; f_equal; lia).
  assert (HR : forall is, inr is (repeat d n) -> ravel (repeat d n) is < N) by (intros is Hi; unfold N; rewrite <- size_rep; apply ravel_lt; exact Hi).
  assert (GZ : forall is js, inr is (repeat d n) -> inr js (repeat d n) -> get z (is ++ js) = (inv t * gram s k n d (ravel (repeat d n) is) (ravel (repeat d n) js))%K).
  { intros is js Hi Hj. rewrite Ez, get_mat_legs by assumption. rewrite get_nscale, Gr by (apply HR; assumption). reflexivity. }
  rewrite Ez at 1 2. split; [apply wf_reshape; [apply wf_nscale; exact Wr|exact Sz]|]. split; [reflexivity|]. split; [exact GZ|].
  intros E1. rewrite <- E1. transitivity (inv t * msum (repeat d n) (fun is => gram s k n d (ravel (repeat d n) is) (ravel (repeat d n) is)))%K.
  - rewrite <- msum_mul_l. apply msum_ext. intros is Hi. apply GZ; exact Hi.
  - f_equal. unfold t. rewrite msum_flat, size_rep. fold N. apply bigsum_ext. intros i Hi. rewrite ravel_unravel by (rewrite size_rep; exact Hi). reflexivity.
Qed.

(** ** random_local_ham *)
Lemma concat_pairs_nth is js i j : length is = length js -> i < length is -> j < 2 ->
  nth (i * 2 + j) (concat (pairs is js)) 0 = nth (j * length is + i) (is ++ js) 0.
Proof.
  intros L Hi Hj. destruct j as [|[|j]]; [| |lia].
  - rewrite Nat.add_0_r. cbn [Nat.mul Nat.add]. rewrite app_nth1 by exact Hi. clear Hj. revert js i L Hi. induction is as [|x is IH]; intros [|y js] i L Hi; cbn in L, Hi; try lia.
    destruct i as [|i]; [reflexivity|]. change (pairs (x :: is) (y :: js)) with ([x; y] :: pairs is js). cbn [concat app Nat.mul Nat.add nth]. apply IH; lia.
  - rewrite Nat.mul_1_l. rewrite app_nth2 by lia. replace (length is + i - length is) with i by lia. clear Hj. revert js i L Hi. induction is as [|x is IH]; intros [|y js] i L Hi; cbn in L, Hi; try lia.
    destruct i as [|i]; [reflexivity|]. change (pairs (x :: is) (y :: js)) with ([x; y] :: pairs is js). cbn [concat app Nat.mul Nat.add nth]. apply IH; lia.
Qed.
Lemma concat_pairs_len is js : length is = length js -> length (concat (pairs is js)) = 2 * length is.
Proof. revert js. induction is as [|x is IH]; intros [|y js] L; try discriminate; [reflexivity|]. change (pairs (x :: is) (y :: js)) with ([x; y] :: pairs is js). cbn [concat app length]. rewrite IH by (cbn in L; lia). lia. Qed.
Lemma concat_rep2 (d n : nat) : concat (repeat [d; d] n) = repeat d (2 * n).
Proof. induction n as [|n IH]; [reflexivity|]. cbn [repeat concat app]. rewrite IH. replace (2 * S n) with (S (S (2 * n))) by lia. reflexivity. Qed.
Lemma g2l_rep (a : nd K) d n : ndwf a -> 0 < n -> shp a = repeat d (2 * n) ->
  exists b, global_to_local a n 0 0 = Ok b /\ ndwf b /\ shp b = repeat d (2 * n) /\
    forall is js, inr is (repeat d n) -> inr js (repeat d n) -> get b (concat (pairs is js)) = get a (is ++ js).
Proof.
  intros W Hn Es. assert (Na : ndim a = 0 + n * 2 + 0) by (unfold ndim; rewrite Es, repeat_length; lia).
  destruct (global_to_local_spec a n 2 0 0 W Hn Na) as (b & E & Wb & Nb & _ & G). exists b. split; [exact E|]. split; [exact Wb|].
  assert (Sb : shp b = repeat d (2 * n)).
  { unfold global_to_local in E. destruct (Nat.eqb n 0); [discriminate|]. destruct (Nat.eqb _ 0); [|discriminate]. cbn [passert] in E. injection E as <-. rewrite shp_transpose.
    pose proof (g2l_nth (ndim a) n 0 0 2 Na Hn) as [G1 G2]. apply repeat_of; [rewrite gather_length, G1; lia|]. intros y Hy. rewrite Es in Hy. unfold gather in Hy. apply in_map_iff in Hy. destruct Hy as [k [<- Hk]].
    apply nth_rep. apply (is_perm_in _ _ (g2l_perm (ndim a) n 0 0 2 Na Hn)) in Hk. rewrite G1 in Hk. lia. }
  split; [exact Sb|]. intros is js Hi Hj. destruct (G (is ++ js)) as (idx' & I1 & I2 & _ & I3 & _). { rewrite Es, rep_two. apply inr_app; assumption. }
  rewrite <- I2. f_equal. pose proof (inr_length _ _ Hi) as Li. pose proof (inr_length _ _ Hj) as Lj. rewrite repeat_length in Li, Lj.
  apply (nth_ext _ _ 0 0).
  - rewrite concat_pairs_len by lia. rewrite (inr_length _ _ I1), Sb, repeat_length. lia.
  - intros m Hm. rewrite concat_pairs_len, Li in Hm by lia. pose proof (Nat.div_mod m 2 ltac:(lia)) as Dm. pose proof (Nat.mod_upper_bound m 2 ltac:(lia)) as Um.
    assert (Hd : m / 2 < n) by (apply Nat.div_lt_upper_bound; lia).
    specialize (I3 (m / 2) (m mod 2) Hd Um). replace (0 + m / 2 * 2 + m mod 2) with m in I3 by lia. rewrite I3. replace m with (m / 2 * 2 + m mod 2) at 1 by lia. rewrite concat_pairs_nth by lia. rewrite Li. reflexivity.
Qed.

(** The Hermitian term with number [k]. *)
Definition ham_term glob d w k : nd K := random_op sqrt_ inv glob k w d true true.
Lemma pos_pow d n : 0 < d -> 0 < Nat.pow d n.
Proof. intros H. apply Nat.neq_0_lt_0, Nat.pow_nonzero. lia. Qed.
Lemma local_ham_spec glob d w k : stream_ok glob -> 0 < d -> 0 < w ->
  outc (qr_fails qr) (local_ham qr sqrt_ inv glob d w k) (fun z => mpa_ok z /\ mshape z = repeat [d; d] w /\
    forall is js, inr is (repeat d w) -> inr js (repeat d w) -> entry z (pairs is js) = get (ham_term glob d w k) (is ++ js)).
Proof.
  intros Hs Hd Hw. destruct (random_op_spec glob k w d true true Hs) as (W & Sh & _).
  destruct (g2l_rep _ d w W Hw Sh) as (b & E & Wb & Sb & Gb). unfold local_ham. rewrite E. cbn [bind].
  eapply outc_weaken; [apply (from_array_int_spec qr Hqr b 2 (repeat [d; d] w))|auto|].
  - exact Wb.
  - rewrite Sb, size_rep. apply pos_pow. exact Hd.
  - rewrite Sb. symmetry. apply concat_rep2.
  - destruct w; [lia|discriminate].
  - left. lia.
  - apply Forall_forall. intros p Hp. apply repeat_spec in Hp. subst p. reflexivity.
  - intros z (Z1 & Z2 & Z3 & _). split; [exact Z1|]. split; [exact Z2|]. intros is js Hi Hj. unfold entry. rewrite Z3. apply Gb; assumption.
Qed.
Lemma prod_eye1 d is js : inr is (repeat d (length is)) -> inr js (repeat d (length js)) -> length is = length js ->
  kprod (map (get (eye (K:=K) d)) (pairs is js)) = if list_eq_dec Nat.eq_dec is js then k1 else k0.
Proof.
  intros Hi Hj L. rewrite <- L in Hj. rewrite <- (prod_eye (repeat d (length is)) is js Hi Hj). f_equal. clear Hi Hj. revert js L. induction is as [|x is IH]; intros [|y js] L; try discriminate; [reflexivity|].
  change (pairs (x :: is) (y :: js)) with ([x; y] :: pairs is js). cbn [map repeat length zip2]. f_equal. apply IH. cbn in L. lia.
Qed.
Definition agree (a b : list nat) : K := if list_eq_dec Nat.eq_dec a b then k1 else k0.
Lemma agree_sym a b : agree a b = agree b a.
Proof. unfold agree. destruct (list_eq_dec Nat.eq_dec a b), (list_eq_dec Nat.eq_dec b a); congruence. Qed.
Lemma agree_conj a b : kconj (agree a b) = agree a b.
Proof. unfold agree. destruct (list_eq_dec Nat.eq_dec a b); [apply kconj_1|apply kconj_0]. Qed.
Lemma pairs_firstn n is js : firstn n (pairs is js) = pairs (firstn n is) (firstn n js).
Proof. revert is js. induction n as [|n IH]; intros [|x is] [|y js]; try reflexivity; change (pairs (x :: is) (y :: js)) with ([x; y] :: pairs is js); cbn [firstn]; try (destruct n; reflexivity). rewrite IH. reflexivity. Qed.
Lemma pairs_skipn n is js : length is = length js -> skipn n (pairs is js) = pairs (skipn n is) (skipn n js).
Proof. revert is js. induction n as [|n IH]; intros [|x is] [|y js] L; try reflexivity; try discriminate. change (pairs (x :: is) (y :: js)) with ([x; y] :: pairs is js). cbn [skipn]. apply IH. cbn in L. lia. Qed.
Lemma inr_rep_firstn d is L n : inr is (repeat d L) -> inr (firstn n is) (repeat d (length (firstn n is))).
Proof. intros H. revert n. remember (repeat d L) as sh. assert (HR : forall y, In y sh -> y = d) by (subst; intros y; apply repeat_spec). clear Heqsh. induction H as [|i e is sh Hi H IH]; intros [|n]; cbn; try constructor; [rewrite <- (HR e (or_introl eq_refl)); exact Hi|apply IH; intros; apply HR; right; assumption]. Qed.
Lemma inr_rep_skipn d is L n : inr is (repeat d L) -> inr (skipn n is) (repeat d (length (skipn n is))).
Proof.
  intros H. assert (HA : Forall (fun i => i < d) is). { remember (repeat d L) as sh. assert (HR : forall y, In y sh -> y = d) by (subst; intros y; apply repeat_spec). clear Heqsh. induction H as [|i e is sh Hi H IH]; constructor; [rewrite <- (HR e (or_introl eq_refl)); exact Hi|apply IH; intros; apply HR; right; assumption]. }
  assert (HB : Forall (fun i => i < d) (skipn n is)). { rewrite Forall_forall in *. intros y Hy. apply HA. rewrite <- (firstn_skipn n is). apply in_or_app. right. exact Hy. }
  clear -HB. induction HB; cbn; constructor; auto.
Qed.

Theorem random_local_ham_spec glob rs sites d w : stream_ok glob -> 0 < d -> 0 < w -> w <= sites ->
  outc (qr_fails qr) (random_local_ham qr sqrt_ inv glob rs sites d w) (fun z =>
    mpa_ok z /\ mshape z = repeat [d; d] sites /\ canonical_form z = (0%Z, Z.of_nat sites) /\
    (forall is js, inr is (repeat d sites) -> inr js (repeat d sites) ->
       entry z (pairs is js) = bigsum (sites + 1 - w) (fun a => agree (firstn a is) (firstn a js) *
          get (ham_term glob d w a) (firstn w (skipn a is) ++ firstn w (skipn a js)) * agree (skipn (a + w)%nat is) (skipn (a + w)%nat js))%K) /\
    ((forall a, a < sites + 1 - w -> kconj (op_factor glob a w d true) = op_factor glob a w d true) -> hermitian_mpo z (repeat d sites))).
Proof.
  intros Hs Hd Hw Hl. unfold random_local_ham. replace (Nat.leb w sites) with true by (symmetry; apply Nat.leb_le; exact Hl). cbn [passert].
  set (m := sites + 1 - w). assert (Hm : 0 < m) by (unfold m; lia).
  eapply outc_bind. { apply (mapM_outc (qr_fails qr) (local_ham qr sqrt_ inv glob d w) (fun k z => mpa_ok z /\ mshape z = repeat [d; d] w /\
    forall is js, inr is (repeat d w) -> inr js (repeat d w) -> entry z (pairs is js) = get (ham_term glob d w k) (is ++ js))). intros k _. apply local_ham_spec; assumption. }
  intros hs HF. pose proof (Forall2_len _ _ _ _ _ HF) as Lh. rewrite seq_length in Lh. cbn [local_sum].
  assert (Hh : forall a, a < m -> let z := nth a hs (mkLt [] 0 0) in mpa_ok z /\ mshape z = repeat [d; d] w /\
    forall is js, inr is (repeat d w) -> inr js (repeat d w) -> entry z (pairs is js) = get (ham_term glob d w a) (is ++ js)).
  { intros a Ha. pose proof (Forall2_nth_inv _ _ _ _ _ HF a 0 (mkLt [] 0 0) ltac:(rewrite seq_length; exact Ha)) as Q. rewrite seq_nth in Q by exact Ha. exact Q. }
  assert (F1 : Forall mpa_ok hs) by (clear -HF; induction HF as [|? ? ? ? [H _] HF IH]; constructor; auto).
  assert (F2 : Forall (fun x => mshape x = repeat [d; d] w) hs) by (clear -HF; induction HF as [|? ? ? ? (_ & H & _) HF IH]; constructor; auto).
  destruct (local_sum_identity_spec hs None (eye d) [d; d] w) as (z & Ez & Hz & Sz & Cl & Cr & _ & Az); auto.
  { intros ->. cbn in Lh. lia. }
  { assert (Q : In (hd (mkLt [] 0 0) hs) hs) by (destruct hs; [cbn in Lh; lia|left; reflexivity]). rewrite Forall_forall in F2. exists d, (repeat [d; d] (w - 1)). split; [|reflexivity]. rewrite (F2 _ Q). destruct w; [lia|]. cbn. rewrite Nat.sub_0_r. reflexivity. }
  { apply wf_tab. }
  replace (length hs + w - 1) with sites in * by lia. left. exists z. split; [exact Ez|]. split; [exact Hz|]. split; [exact Sz|]. split; [unfold canonical_form; rewrite Cl, Cr; reflexivity|].
  assert (EN : forall is js, inr is (repeat d sites) -> inr js (repeat d sites) ->
       entry z (pairs is js) = bigsum m (fun a => agree (firstn a is) (firstn a js) *
          get (ham_term glob d w a) (firstn w (skipn a is) ++ firstn w (skipn a js)) * agree (skipn (a + w)%nat is) (skipn (a + w)%nat js))%K).
  { intros is js Hi Hj. pose proof (inr_length _ _ Hi) as Li. pose proof (inr_length _ _ Hj) as Lj. rewrite repeat_length in Li, Lj.
    assert (V : valid_idx (pairs is js) (repeat [d; d] sites)) by (rewrite <- map_rep with (f := fun d => [d; d]); apply pairs_valid_sq; assumption).
    rewrite entry_amp by (auto; rewrite Sz; exact V). rewrite (Az _ V). rewrite <- Lh. apply bigsum_ext. intros a Ha. destruct (Hh a Ha) as (H1 & H2 & H3).
    assert (La : a + w <= sites) by (unfold m in Ha; lia).
    assert (Wi : forall ks, inr ks (repeat d sites) -> inr (firstn w (skipn a ks)) (repeat d w)).
    { intros ks Hk. pose proof (inr_length _ _ Hk) as Lk. rewrite repeat_length in Lk. pose proof (inr_rep_skipn d ks sites a Hk) as Q. apply (inr_rep_firstn d _ _ w) in Q. rewrite firstn_length, skipn_length, Nat.min_l in Q by lia. exact Q. }
    rewrite pairs_firstn, !pairs_skipn, pairs_firstn by lia. rewrite <- H3 by (apply Wi; assumption). f_equal; [f_equal|].
    - apply prod_eye1; [apply (inr_rep_firstn d is sites a Hi)|apply (inr_rep_firstn d js sites a Hj)|rewrite !firstn_length; lia].
    - symmetry. apply entry_amp; [exact H1|]. rewrite H2. rewrite <- map_rep with (f := fun d => [d; d]). apply pairs_valid_sq; apply Wi; assumption.
    - apply prod_eye1; [apply (inr_rep_skipn d is sites _ Hi)|apply (inr_rep_skipn d js sites _ Hj)|rewrite !skipn_length; lia]. }
  split; [exact EN|]. intros Hf is js Hi Hj. rewrite (EN is js Hi Hj), (EN js is Hj Hi). rewrite bigsum_conj. apply bigsum_ext. intros a Ha.
  rewrite !(kconj_mul K), !agree_conj. rewrite (agree_sym (firstn a is)), (agree_sym (skipn (a + w) is)). f_equal. f_equal.
  pose proof (inr_length _ _ Hi) as Li. pose proof (inr_length _ _ Hj) as Lj. rewrite repeat_length in Li, Lj. assert (La : a + w <= sites) by (unfold m in Ha; lia).
  assert (Wi : forall ks, inr ks (repeat d sites) -> inr (firstn w (skipn a ks)) (repeat d w)).
  { intros ks Hk. pose proof (inr_length _ _ Hk) as Lk. rewrite repeat_length in Lk. pose proof (inr_rep_skipn d ks sites a Hk) as Q. apply (inr_rep_firstn d _ _ w) in Q. rewrite firstn_length, skipn_length, Nat.min_l in Q by lia. exact Q. }
  destruct (random_op_spec glob a w d true true Hs) as (_ & _ & _ & _ & HH). apply (HH eq_refl (fun _ => Hf a Ha)); apply Wi; assumption.
Qed.
Lemma random_local_ham_error glob rs sites d w : sites < w -> random_local_ham qr sqrt_ inv glob rs sites d w = Err AssertionError.
Proof. intros H. unfold random_local_ham. replace (Nat.leb w sites) with false by (symmetry; apply Nat.leb_gt; exact H). reflexivity. Qed.
(** The random state that the caller passes has no influence. *)
Lemma random_local_ham_state glob rs rs' sites d w : random_local_ham qr sqrt_ inv glob rs sites d w = random_local_ham qr sqrt_ inv glob rs' sites d w.
Proof. reflexivity. Qed.
End Ham.
