(** [MPPovm.match_elems] (mppovm.py 564-658). *)
From Coq Require Import Reals Lra.
From Verif Require Export PfEstim PfMatchArr.
Open Scope nat_scope.
Add Ring Cr : (k_ring CS).

(** ** Distance from a line *)
(** [A - z B] *)
Definition off (A B : mat CS) (z : CS) : mat CS := fun is js => (A is js - z * B is js)%K.
(** The squared cosine of the angle between two matrices *)
Definition overlap (hs : list nat) (A B : mat CS) : R := (cabs2 (hsin hs A B) / (hsn2 hs A * hsn2 hs B))%R.

Lemma hsn2_ext hs A A' : (forall is js, inr is hs -> inr js hs -> A is js = A' is js) -> hsn2 hs A = hsn2 hs A'.
Proof. intros H. unfold hsn2. f_equal. apply hsin_ext; assumption. Qed.
Lemma hsn2_scale hs A (r : R) : hsn2 hs (fun is js => toC r * A is js)%K = (r * r * hsn2 hs A)%R.
Proof.
  apply toC_inj. rewrite <- hsn2_toC.
  transitivity (hsin hs (fun is js => toC r * A is js + k0 * A is js)%K (fun is js => toC r * A is js + k0 * A is js)%K); [apply hsin_ext; intros; ring|].
  rewrite hsin_expand, !hsn2_toC, toC_conj, !toC_mul, kconj_0. ring.
Qed.
(** The Gram determinant does not change when a multiple of [B] is subtracted. *)
Lemma defect_off hs A B z is js : defect hs (off A B z) B is js = defect hs A B is js.
Proof.
  unfold defect, off.
  assert (E : hsin hs B (fun is js => A is js - z * B is js)%K = (hsin hs B A - z * toC (hsn2 hs B))%K).
  { transitivity (hsin hs B (fun is js => k1 * A is js + - z * B is js)%K); [apply hsin_ext; intros; ring|]. rewrite hsin_lin, hsn2_toC. ring. }
  rewrite E. ring.
Qed.
Lemma off_lower hs A B z : (0 < hsn2 hs B)%R -> (hsn2 hs A * hsn2 hs B - cabs2 (hsin hs A B) <= hsn2 hs (off A B z) * hsn2 hs B)%R.
Proof.
  intros P. assert (E : hsn2 hs (defect hs (off A B z) B) = hsn2 hs (defect hs A B)) by (apply hsn2_ext; intros; apply defect_off).
  rewrite !defect_norm in E. pose proof (cabs2_nonneg (hsin hs (off A B z) B)). apply Rmult_eq_reg_l in E; lra.
Qed.
Lemma off_best hs A B : (0 < hsn2 hs B)%R -> exists z, (hsn2 hs (off A B z) * hsn2 hs B = hsn2 hs A * hsn2 hs B - cabs2 (hsin hs A B))%R.
Proof.
  intros P. exists (toC (/ hsn2 hs B) * hsin hs B A)%K.
  assert (E : hsn2 hs (off A B (toC (/ hsn2 hs B) * hsin hs B A)) = (/ hsn2 hs B * / hsn2 hs B * hsn2 hs (defect hs A B))%R).
  { rewrite <- hsn2_scale. apply hsn2_ext. intros is js _ _. unfold off, defect.
    transitivity (toC (/ hsn2 hs B * hsn2 hs B) * A is js - toC (/ hsn2 hs B) * hsin hs B A * B is js)%K.
    - rewrite Rinv_l by lra. rewrite toC_1. ring.
    - rewrite toC_mul. ring. }
  rewrite E, defect_norm. field. lra.
Qed.
(** The test of [match_elems]: relative distance from the line of multiples *)
Theorem match_iff hs A B eps : (0 < hsn2 hs A)%R -> (0 < hsn2 hs B)%R ->
  Rleb (Rabs (overlap hs A B - 1)) eps = true <-> exists z, (hsn2 hs (off A B z) <= eps * hsn2 hs A)%R.
Proof.
  intros Pa Pb. pose proof (cauchy_schwarz hs A B) as CS_. assert (P : (0 < hsn2 hs A * hsn2 hs B)%R) by nra.
  assert (Q : Rabs (overlap hs A B - 1) = ((hsn2 hs A * hsn2 hs B - cabs2 (hsin hs A B)) / (hsn2 hs A * hsn2 hs B))%R).
  { unfold overlap. rewrite Rabs_left1.
    - field. lra.
    - apply (Rmult_le_reg_r (hsn2 hs A * hsn2 hs B)); [exact P|]. rewrite Rmult_minus_distr_r. unfold Rdiv. rewrite Rmult_assoc, Rinv_l by lra. lra. }
  rewrite Q. assert (W : forall u, (u / (hsn2 hs A * hsn2 hs B) <= eps)%R <-> (u <= eps * (hsn2 hs A * hsn2 hs B))%R).
  { intros u. split; intros H.
    - apply (Rmult_le_compat_r (hsn2 hs A * hsn2 hs B)) in H; [|lra]. unfold Rdiv in H. rewrite Rmult_assoc, Rinv_l in H by lra. lra.
    - apply (Rmult_le_reg_r (hsn2 hs A * hsn2 hs B)); [exact P|]. unfold Rdiv. rewrite Rmult_assoc, Rinv_l by lra. lra. }
  destruct (Rleb_spec ((hsn2 hs A * hsn2 hs B - cabs2 (hsin hs A B)) / (hsn2 hs A * hsn2 hs B)) eps) as [H|H].
  - split; [intros _|reflexivity]. apply W in H. destruct (off_best hs A B Pb) as (z & Hz). exists z. apply (Rmult_le_reg_r (hsn2 hs B)); [exact Pb|]. rewrite Hz. lra.
  - split; [discriminate|]. intros (z & Hz). exfalso. apply H. apply W. pose proof (off_lower hs A B z Pb). nra.
Qed.
(** Exact proportionality *)
Corollary match_exact hs A B : (0 < hsn2 hs A)%R -> (0 < hsn2 hs B)%R ->
  Rleb (Rabs (overlap hs A B - 1)) 0 = true <-> exists z, forall is js, inr is hs -> inr js hs -> A is js = (z * B is js)%K.
Proof.
  intros Pa Pb. rewrite match_iff by assumption. split; intros (z & H); exists z.
  - intros is js Hi Hj. assert (Z : hsn2 hs (off A B z) = 0%R) by (pose proof (hsn2_nonneg hs (off A B z)); lra). pose proof (hsn2_zero _ _ Z is js Hi Hj) as D. unfold off in D.
    transitivity ((A is js - z * B is js) + z * B is js)%K; [ring|]. rewrite D. ring.
  - rewrite Rmult_0_l. right. transitivity (hsn2 hs (fun is js => toC 0 * A is js)%K); [|rewrite hsn2_scale; ring]. apply hsn2_ext. intros is js Hi Hj. unfold off. rewrite H by assumption. apply cplx_eq; cbn; ring.
Qed.
(** The prefactor is right up to the tolerance for positive semidefinite elements. *)
Theorem prefactor_close hs A B eps : gram_rho hs A -> gram_rho hs B -> (0 < hsn2 hs A)%R -> (0 < hsn2 hs B)%R ->
  Rleb (Rabs (overlap hs A B - 1)) eps = true -> (hsn2 hs (off A B (toC (sqrt (hsn2 hs A / hsn2 hs B)))) <= 2 * eps * hsn2 hs A)%R.
Proof.
  intros Ga Gb Pa Pb M. destruct (Rleb_spec (Rabs (overlap hs A B - 1)) eps) as [H|]; [clear M|discriminate].
  pose proof (cauchy_schwarz hs A B) as CS_. assert (P : (0 < hsn2 hs A * hsn2 hs B)%R) by nra.
  set (p := sqrt (hsn2 hs A / hsn2 hs B)). assert (Pp : (p * p = hsn2 hs A / hsn2 hs B)%R) by (apply sqrt_sqrt; left; apply Rdiv_lt_0_compat; assumption).
  assert (P0 : (0 < p)%R) by (apply sqrt_lt_R0; apply Rdiv_lt_0_compat; assumption).
  destruct (hsin_gram hs A B Ga Gb) as [Im Re]. set (c := Cre (hsin hs B A)) in *.
  assert (Ec : hsin hs B A = toC c) by (apply cplx_eq; [reflexivity|exact Im]).
  assert (Ec' : hsin hs A B = toC c) by (rewrite <- (hsin_conj hs B A), Ec; apply toC_conj).
  assert (E2 : cabs2 (hsin hs A B) = (c * c)%R) by (rewrite Ec'; unfold cabs2; cbn; ring).
  assert (N : (hsn2 hs (off A B (toC p)) = 2 * hsn2 hs A - 2 * p * c)%R).
  { apply toC_inj. rewrite <- hsn2_toC. transitivity (hsin hs (fun is js => k1 * A is js + - toC p * B is js)%K (fun is js => k1 * A is js + - toC p * B is js)%K); [apply hsin_ext; intros; unfold off; ring|].
    rewrite hsin_expand, !hsn2_toC, Ec, Ec', kconj_1, kconj_opp, toC_conj. transitivity (toC (hsn2 hs A - 2 * p * c + p * p * hsn2 hs B))%K; [apply cplx_eq; cbn; ring|]. f_equal. rewrite Pp. field. lra. }
  rewrite N. assert (O : (1 - eps <= overlap hs A B)%R) by (rewrite Rabs_minus_sym in H; pose proof (Rle_abs (1 - overlap hs A B)); lra).
  assert (O1 : (overlap hs A B <= 1)%R). { unfold overlap. apply (Rmult_le_reg_r (hsn2 hs A * hsn2 hs B)); [exact P|]. unfold Rdiv. rewrite Rmult_assoc, Rinv_l by lra. lra. }
  assert (O2 : (overlap hs A B * (hsn2 hs A * hsn2 hs A) = (p * c) * (p * c))%R).
  { unfold overlap. rewrite E2. replace (p * c * (p * c))%R with (p * p * (c * c))%R by ring. rewrite Pp. field. lra. }
  (* w = p c / |A|^2 satisfies w^2 = overlap <= 1, so w >= overlap *)
  assert (W0 : (0 <= p * c)%R) by nra.
  assert (W1 : (p * c <= hsn2 hs A)%R). { apply Rnot_lt_le. intros L. assert (hsn2 hs A * hsn2 hs A < p * c * (p * c))%R by nra. nra. }
  assert (W2 : (overlap hs A B * hsn2 hs A <= p * c)%R). { apply (Rmult_le_reg_r (hsn2 hs A)); [exact Pa|]. rewrite Rmult_assoc, O2. nra. }
  nra.
Qed.
Corollary prefactor_exact hs A B : gram_rho hs A -> gram_rho hs B -> (0 < hsn2 hs A)%R -> (0 < hsn2 hs B)%R ->
  (exists z, forall is js, inr is hs -> inr js hs -> A is js = (z * B is js)%K) -> forall is js, inr is hs -> inr js hs -> A is js = (toC (sqrt (hsn2 hs A / hsn2 hs B)) * B is js)%K.
Proof. intros Ga Gb Pa Pb E. apply cauchy_schwarz_gram; auto. apply cauchy_schwarz_eq; auto. Qed.

(** ** The arrays of [match_elems] *)
(** An element of the second POVM after summing outcomes *)
Definition summed_elem (ns os : list nat) (o : ltens CS) (ls : list nat) : mat CS := fun is js => summed ns os ls (fun l => elem_of o l is js).
Definition match_tab (hs ns os : list nat) (x o : ltens CS) (eps : R) : mtch :=
  let ms := merge_dims ns os in
  let A i := elem_of x (unravel ns i) in
  let B j := summed_elem ns os o (unravel ms j) in
  let t i j := Rleb (Rabs (overlap hs (A i) (B j) - 1)) eps in
  mkM (bigd ns) (bigd ms) (table (size ns) (size ms) t)
    (table (size ns) (size ms) (fun i j => if t i j then Fin (sqrt (hsn2 hs (A i) / hsn2 hs (B j))) else NaN)).
(** No element vanishes. *)
Definition nonzero_elems (hs ns os : list nat) (x o : ltens CS) : Prop :=
  (forall ks, inr ks ns -> (0 < hsn2 hs (elem_of x ks))%R) /\ (forall ls, inr ls (merge_dims ns os) -> (0 < hsn2 hs (summed_elem ns os o ls))%R).
(** How often an element of the second POVM is matched by the first one, and vice versa *)
Definition matched (m : mtch) (i j : nat) : bool := nth (i * size (m_o m) + j) (m_match m) false.
Definition dup_ok (m : mtch) (dup : list dupkey) : bool :=
  (negb (has_dup true dup) || forallb (fun j => Nat.leb (count_true (map (fun i => matched m i j) (seq 0 (size (m_s m))))) 1) (seq 0 (size (m_o m))))
  && (negb (has_dup false dup) || forallb (fun i => Nat.leb (count_true (map (fun j => matched m i j) (seq 0 (size (m_o m))))) 1) (seq 0 (size (m_s m)))).

Lemma Rltb_true x y : (x < y)%R -> Rltb x y = true.
Proof. intros H. unfold Rltb. rewrite Rleb_false by exact H. reflexivity. Qed.
Lemma Rltb_spec x y : reflect (x < y)%R (Rltb x y).
Proof. unfold Rltb. destruct (Rleb_spec y x); constructor; lra. Qed.
Lemma forallb_map {A B : Type} (f : A -> B) (p : B -> bool) l : forallb p (map f l) = forallb (fun a => p (f a)) l.
Proof. induction l as [|a l IH]; [reflexivity|]. cbn. rewrite IH. reflexivity. Qed.
Lemma forallb_seq (p : nat -> bool) n : forallb p (seq 0 n) = true <-> forall i, i < n -> p i = true.
Proof. rewrite forallb_forall. split; intros H i Hi; apply H; [apply in_seq; lia|apply in_seq in Hi; lia]. Qed.

Lemma summed_hsn2 (x o z : ltens CS) ns os hs : povm_ok z (merge_dims ns os) hs ->
  (forall ks is js, inr ks (merge_dims ns os) -> inr is hs -> inr js hs -> elem_of z ks is js = summed ns os ks (fun ls => elem_of o ls is js)) ->
  forall ks, inr ks (merge_dims ns os) -> hsn2 hs (elem_of z ks) = hsn2 hs (summed_elem ns os o ks) /\ forall A, hsin hs A (elem_of z ks) = hsin hs A (summed_elem ns os o ks).
Proof. intros _ H ks Hk. split; [apply hsn2_ext|intros A; apply hsin_ext; [reflexivity|]]; intros; apply H; assumption. Qed.

Theorem match_elems_spec (x o : ltens CS) ns os hs dup eps : povm_ok x ns hs -> povm_ok o os hs -> nonzero_elems hs ns os x o -> (0 <= eps)%R ->
  ~ In DBad dup -> let m := match_tab hs ns os x o eps in
  match_elems x o dup eps = if dup_ok m dup then Ok m else Err AssertionError.
Proof.
  intros Hx Ho [Nx No] He Hd m. unfold match_elems. destruct (povm_dims _ _ _ Hx) as (_ & Dx & _). destruct (povm_dims _ _ _ Ho) as (_ & Do & _). rewrite Dx, Do, list_eqb_refl. cbn [praise_unless].
  assert (Eb : forallb (fun d => match d with DBad => false | _ => true end) dup = true). { apply forallb_forall. intros d Hin. destruct d; auto. }
  rewrite Eb. cbn [passert]. destruct (merge_other_spec x o ns os hs Hx Ho) as (z & Ez & Hz & Az). rewrite Ez. cbn [bind].
  pose proof (summed_hsn2 x o z ns os hs Hz Az) as Mz. set (ms := merge_dims ns os) in *.
  destruct (inner_arr_spec x z ns ms hs Hx Hz) as (ia & Ei & Wi & Si & Di). rewrite Ei. cbn [bind].
  destruct (normsq_arr_spec x ns hs Hx) as (sa & Es & Ws & Ss & Ds). rewrite Es. cbn [bind].
  destruct (normsq_arr_spec z ms hs Hz) as (oa & Eo & Wo & So & Do'). rewrite Eo. cbn [bind].
  destruct (povm_pos _ _ _ Hx) as [Pn _]. destruct (povm_pos _ _ _ Hz) as [Pm _].
  rewrite Di, Ds, Do', table_map, !map_map, Si, Ss, So, list_eqb_refl. rewrite !size_bigd by assumption.
  change (fun i => Cre (hsin hs (elem_of x (unravel ns i)) (elem_of x (unravel ns i)))) with (fun i => hsn2 hs (elem_of x (unravel ns i))).
  rewrite (map_ext_in (fun i => Cre (hsin hs (elem_of z (unravel ms i)) (elem_of z (unravel ms i)))) (fun i => hsn2 hs (summed_elem ns os o (unravel ms i)))) by (intros i Hi; apply in_seq in Hi; apply Mz; apply unravel_inr; lia).
  rewrite (table_ext _ _ (fun i j => cabs2 (hsin hs (elem_of x (unravel ns i)) (elem_of z (unravel ms j)))) (fun i j => cabs2 (hsin hs (elem_of x (unravel ns i)) (summed_elem ns os o (unravel ms j))))) by (intros i j Hi Hj; f_equal; apply Mz; apply unravel_inr; lia).
  rewrite !forallb_map.
  rewrite (proj2 (forallb_seq _ _)) by (intros i Hi; apply Rltb_true; apply Nx; apply unravel_inr; exact Hi). cbn [passert].
  rewrite (proj2 (forallb_seq _ _)) by (intros i Hi; apply Rltb_true; apply No; apply unravel_inr; exact Hi). cbn [passert].
  cbv zeta. rewrite !outer_table, table_combine, table_map. cbn [fst snd].
  match goal with |- passert ?b _ = _ => assert (Ec : b = true) end.
  { apply forallb_forall. intros p Hp. apply table_In in Hp. destruct Hp as (i & j & Hi & Hj & ->). cbn [fst snd]. apply Rleb_true.
    pose proof (Nx _ (unravel_inr ns i Hi)) as PA. pose proof (No _ (unravel_inr ms j Hj)) as PB. pose proof (cauchy_schwarz hs (elem_of x (unravel ns i)) (summed_elem ns os o (unravel ms j))) as CS_.
    apply Rle_trans with 0%R; [lra|]. apply Rmult_le_pos; [lra|]. left. apply Rinv_0_lt_compat. nra. }
  rewrite Ec. cbn [passert]. rewrite table_combine, table_map. cbn [fst snd].
  unfold dup_ok, matched, m, match_tab. cbv zeta. cbn [m_s m_o m_match m_pref]. fold ms. rewrite !size_bigd by assumption.
  change (table (size ns) (size ms) (fun i j => Rleb (Rabs (cabs2 (hsin hs (elem_of x (unravel ns i)) (summed_elem ns os o (unravel ms j))) / (hsn2 hs (elem_of x (unravel ns i)) * hsn2 hs (summed_elem ns os o (unravel ms j))) - 1)) eps))
    with (table (size ns) (size ms) (fun i j => Rleb (Rabs (overlap hs (elem_of x (unravel ns i)) (summed_elem ns os o (unravel ms j)) - 1)) eps)).
  set (T := table (size ns) (size ms) (fun i j => Rleb (Rabs (overlap hs (elem_of x (unravel ns i)) (summed_elem ns os o (unravel ms j)) - 1)) eps)).
  unfold passert. destruct (negb (has_dup true dup) || _); [|reflexivity]. cbn [andb]. destruct (negb (has_dup false dup) || _); reflexivity.
Qed.
Theorem match_elems_errors (x o : ltens CS) dup eps : hdims x <> hdims o -> match_elems x o dup eps = Err ValueError.
Proof. intros H. unfold match_elems. destruct (list_eqb (hdims x) (hdims o)) eqn:E; [apply list_eqb_eq in E; congruence|reflexivity]. Qed.
Theorem match_elems_badkey (x o : ltens CS) dup eps : hdims x = hdims o -> In DBad dup -> match_elems x o dup eps = Err AssertionError.
Proof.
  intros H Hin. unfold match_elems. rewrite H, list_eqb_refl. cbn [praise_unless]. destruct (forallb _ dup) eqn:E; [|reflexivity]. rewrite forallb_forall in E. discriminate (E _ Hin).
Qed.
Theorem match_elems_zero (x o : ltens CS) ns os hs dup eps : povm_ok x ns hs -> povm_ok o os hs ->
  (exists ks, inr ks ns /\ hsn2 hs (elem_of x ks) = 0%R) \/ (exists ls, inr ls (merge_dims ns os) /\ hsn2 hs (summed_elem ns os o ls) = 0%R) -> match_elems x o dup eps = Err AssertionError.
Proof.
  intros Hx Ho Hz0. unfold match_elems. destruct (povm_dims _ _ _ Hx) as (_ & Dx & _). destruct (povm_dims _ _ _ Ho) as (_ & Do & _). rewrite Dx, Do, list_eqb_refl. cbn [praise_unless].
  unfold passert at 1. destruct (forallb _ dup); [|reflexivity]. destruct (merge_other_spec x o ns os hs Hx Ho) as (z & Ez & Hz & Az). rewrite Ez. cbn [bind].
  pose proof (summed_hsn2 x o z ns os hs Hz Az) as Mz. set (ms := merge_dims ns os) in *.
  destruct (inner_arr_spec x z ns ms hs Hx Hz) as (ia & Ei & Wi & Si & Di). rewrite Ei. cbn [bind].
  destruct (normsq_arr_spec x ns hs Hx) as (sa & Es & Ws & Ss & Ds). rewrite Es. cbn [bind].
  destruct (normsq_arr_spec z ms hs Hz) as (oa & Eo & Wo & So & Do'). rewrite Eo. cbn [bind]. cbv zeta. rewrite Ds, Do', !map_map, !forallb_map.
  assert (F : forall b c : bool, forall k : res mtch, b = false \/ c = false -> passert b (passert c k) = Err AssertionError) by (intros [] [] k [E|E]; try discriminate; reflexivity).
  assert (G : forall p N n, n < N -> p n = false -> forallb p (seq 0 N) = false).
  { intros p N n Hn E. destruct (forallb p (seq 0 N)) eqn:E'; [|reflexivity]. rewrite forallb_seq in E'. rewrite (E' n Hn) in E. discriminate. }
  apply F. destruct Hz0 as [(ks & Hk & E)|(ls & Hl & E)]; [left|right].
  - apply (G _ _ (ravel ns ks)); [apply ravel_lt; exact Hk|]. rewrite unravel_ravel by exact Hk. fold (hsn2 hs (elem_of x ks)). rewrite E. unfold Rltb. rewrite Rleb_true by lra. reflexivity.
  - apply (G _ _ (ravel ms ls)); [apply ravel_lt; exact Hl|]. rewrite unravel_ravel by exact Hl. fold (hsn2 hs (elem_of z ls)). rewrite (proj1 (Mz ls Hl)), E. unfold Rltb. rewrite Rleb_true by lra. reflexivity.
Qed.

(** ** Entries of the arrays *)
(** [a[idx]] for the two returned arrays *)
Definition match_at (m : mtch) (ks ls : list nat) : bool := nth (ravel (m_s m ++ m_o m) (ks ++ ls)) (m_match m) false.
Definition pref_at (m : mtch) (ks ls : list nat) : flt := nth (ravel (m_s m ++ m_o m) (ks ++ ls)) (m_pref m) NaN.
Lemma match_ravel (x o : ltens CS) ns os hs ks ls : povm_ok x ns hs -> povm_ok o os hs -> inr ks ns -> inr ls (merge_dims ns os) ->
  ravel (bigd ns ++ bigd (merge_dims ns os)) (bigi ns ks ++ bigi (merge_dims ns os) ls) = ravel ns ks * size (merge_dims ns os) + ravel (merge_dims ns os) ls.
Proof.
  intros Hx Ho Hk Hl. destruct (povm_pos _ _ _ Hx) as [Pn _]. destruct (povm_pos _ _ _ Ho) as [Po _]. pose proof (merge_dims_pos ns os Po) as Pm.
  rewrite ravel_app by (apply bigi_inr; exact Hk). rewrite size_bigd by exact Pm. rewrite !ravel_bigi by assumption. reflexivity.
Qed.
Theorem match_tab_entry (x o : ltens CS) ns os hs eps ks ls : povm_ok x ns hs -> povm_ok o os hs -> inr ks ns -> inr ls (merge_dims ns os) ->
  let m := match_tab hs ns os x o eps in let A := elem_of x ks in let B := summed_elem ns os o ls in
  match_at m (bigi ns ks) (bigi (merge_dims ns os) ls) = Rleb (Rabs (overlap hs A B - 1)) eps /\
  pref_at m (bigi ns ks) (bigi (merge_dims ns os) ls) = if match_at m (bigi ns ks) (bigi (merge_dims ns os) ls) then Fin (sqrt (hsn2 hs A / hsn2 hs B)) else NaN.
Proof.
  intros Hx Ho Hk Hl m A B. pose proof (ravel_lt _ _ Hk) as Rk. pose proof (ravel_lt _ _ Hl) as Rl.
  assert (E1 : match_at m (bigi ns ks) (bigi (merge_dims ns os) ls) = Rleb (Rabs (overlap hs A B - 1)) eps).
  { unfold match_at, m, match_tab. cbn [m_s m_o m_match]. rewrite (match_ravel x o ns os hs) by assumption. rewrite table_nth by assumption. rewrite !unravel_ravel by assumption. reflexivity. }
  split; [exact E1|]. rewrite E1. unfold pref_at, m, match_tab. cbn [m_s m_o m_pref]. rewrite (match_ravel x o ns os hs) by assumption. rewrite table_nth by assumption. rewrite !unravel_ravel by assumption. reflexivity.
Qed.

(** ** Elements that match more than once *)
Lemma count_pos (f : nat -> bool) n : forall a, 0 < count_true (map f (seq a n)) <-> exists i, a <= i < a + n /\ f i = true.
Proof.
  induction n as [|n IH]; intros a; cbn [seq map]; unfold count_true in *.
  - cbn. split; [lia|intros (i & H & _); lia].
  - cbn [filter]. destruct (f a) eqn:E.
    + cbn [length]. split; [intros _; exists a; split; [lia|exact E]|lia].
    + rewrite IH. split; intros (i & H & F); exists i; (split; [|exact F]); [lia|]. destruct (Nat.eq_dec i a) as [->|]; [congruence|lia].
Qed.
Lemma count_two (f : nat -> bool) n : forall a, Nat.leb (count_true (map f (seq a n))) 1 = false <-> exists i j, a <= i /\ i < j < a + n /\ f i = true /\ f j = true.
Proof.
  induction n as [|n IH]; intros a; cbn [seq map].
  - cbn. split; [discriminate|intros (i & j & H1 & H2 & _); lia].
  - unfold count_true. cbn [filter]. destruct (f a) eqn:E.
    + cbn [length]. rewrite Nat.leb_gt. pose proof (count_pos f n (S a)) as C. unfold count_true in C. split.
      * intros H. destruct (proj1 C) as (j & Hj & F); [lia|]. exists a, j. split; [lia|]. split; [lia|]. split; assumption.
      * intros (i & j & H1 & H2 & F1 & F2). assert (0 < length (filter (fun b : bool => b) (map f (seq (S a) n)))); [|lia]. apply C. exists j. split; [lia|exact F2].
    + fold (count_true (map f (seq (S a) n))). rewrite IH. split; intros (i & j & H1 & H2 & F1 & F2); exists i, j; (split; [|split; [|split; assumption]]); try lia. destruct (Nat.eq_dec i a) as [->|]; [congruence|lia].
Qed.
Lemma forallb_false {A : Type} (p : A -> bool) l : forallb p l = false <-> exists a, In a l /\ p a = false.
Proof.
  induction l as [|a l IH]; cbn [forallb].
  - split; [discriminate|intros (a & [] & _)].
  - destruct (p a) eqn:E; cbn [andb].
    + rewrite IH. split; intros (b & H & F); exists b; (split; [|exact F]); [right; exact H|]. destruct H as [->|H]; [congruence|exact H].
    + split; [intros _; exists a; split; [left; reflexivity|exact E]|reflexivity].
Qed.
Lemma has_dup_in dup : (has_dup true dup = true <-> In DSelf dup) /\ (has_dup false dup = true <-> In DOther dup).
Proof.
  unfold has_dup. split; rewrite existsb_exists; split.
  - intros (d & H & E). destruct d; try discriminate. exact H.
  - intros H. exists DSelf. split; [exact H|reflexivity].
  - intros (d & H & E). destruct d; try discriminate. exact H.
  - intros H. exists DOther. split; [exact H|reflexivity].
Qed.
Theorem exclude_dup_spec (x o : ltens CS) ns os hs dup eps : povm_ok x ns hs -> povm_ok o os hs -> nonzero_elems hs ns os x o -> (0 <= eps)%R -> ~ In DBad dup ->
  exists m, match_elems x o [] eps = Ok m /\
    ((match_elems x o dup eps = Ok m /\
      (In DSelf dup -> forall i i' j, i < i' < size (m_s m) -> j < size (m_o m) -> matched m i j = true -> matched m i' j = true -> False) /\
      (In DOther dup -> forall i j j', i < size (m_s m) -> j < j' < size (m_o m) -> matched m i j = true -> matched m i j' = true -> False)) \/
     (match_elems x o dup eps = Err AssertionError /\
      ((In DSelf dup /\ exists i i' j, i < i' < size (m_s m) /\ j < size (m_o m) /\ matched m i j = true /\ matched m i' j = true) \/
       (In DOther dup /\ exists i j j', i < size (m_s m) /\ j < j' < size (m_o m) /\ matched m i j = true /\ matched m i j' = true)))).
Proof.
  intros Hx Ho NZ He Hd. set (m := match_tab hs ns os x o eps). exists m. split; [rewrite (match_elems_spec x o ns os hs [] eps Hx Ho NZ He (fun f => f)); reflexivity|].
  rewrite (match_elems_spec x o ns os hs dup eps Hx Ho NZ He Hd). fold m. cbv zeta. destruct (has_dup_in dup) as [D1 D2].
  destruct (dup_ok m dup) eqn:E; [left|right]; (split; [reflexivity|]); unfold dup_ok in E.
  - apply andb_prop in E. destruct E as [E1 E2]. split.
    + intros HD i i' j Hi Hj F1 F2. apply D1 in HD. rewrite HD in E1. cbn [negb orb] in E1. rewrite forallb_forall in E1. specialize (E1 j ltac:(apply in_seq; lia)).
      assert (C : Nat.leb (count_true (map (fun i => matched m i j) (seq 0 (size (m_s m))))) 1 = false); [|congruence]. apply count_two. exists i, i'. split; [lia|]. split; [lia|]. split; assumption.
    + intros HD i j j' Hi Hj F1 F2. apply D2 in HD. rewrite HD in E2. cbn [negb orb] in E2. rewrite forallb_forall in E2. specialize (E2 i ltac:(apply in_seq; lia)).
      assert (C : Nat.leb (count_true (map (fun j => matched m i j) (seq 0 (size (m_o m))))) 1 = false); [|congruence]. apply count_two. exists j, j'. split; [lia|]. split; [lia|]. split; assumption.
  - apply andb_false_iff in E. destruct E as [E|E]; apply orb_false_iff in E; destruct E as [E1 E2]; apply negb_false_iff in E1; apply forallb_false in E2; destruct E2 as (a & Ha & C); apply in_seq in Ha; apply count_two in C; destruct C as (i & j & _ & Hij & F1 & F2).
    + left. split; [apply D1; exact E1|]. exists i, j, a. split; [lia|]. split; [lia|]. split; assumption.
    + right. split; [apply D2; exact E1|]. exists a, i, j. split; [lia|]. split; [lia|]. split; assumption.
Qed.
