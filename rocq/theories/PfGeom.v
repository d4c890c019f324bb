(** Geometry of [inner], [norm] and [normdist] over the complex numbers. *)
From Coq Require Import Reals Lra Psatz List ZArith Lia.
From Verif Require Import Oracles PfHistory PfTrunc PfAdd PfInner PfUnique2 NormReal PfEckart PfQuasi.
Import ListNotations.
Local Open Scope R_scope.
Add Ring CSrg : (k_ring CS).

Lemma n2_nonneg {X} (l : list X) f : 0 <= n2 l f.
Proof. induction l as [|x l IH]; [right; reflexivity|]. unfold n2 in *. rewrite rs_cons. pose proof (sq_nonneg (f x)). lra. Qed.
Lemma n2_zero {X} (l : list X) f : n2 l f = 0 -> forall x, In x l -> f x = k0.
Proof.
  induction l as [|x l IH]; intros H y Hy; [destruct Hy|]. unfold n2 in *. rewrite rs_cons in H.
  pose proof (sq_nonneg (f x)). pose proof (n2_nonneg l f) as P. unfold n2 in P. destruct Hy as [<-|Hy]; [apply sq_0; lra|apply IH; [lra|exact Hy]].
Qed.
Lemma n2_ext {X} (l : list X) f g : (forall x, In x l -> f x = g x) -> n2 l f = n2 l g.
Proof. intros H. apply rs_ext. intros x Hx. rewrite (H x Hx). reflexivity. Qed.

Lemma cs_step a b F G f g : 0 <= F -> 0 <= G -> sq a <= F * G -> sq b = sq f * sq g -> sq (a + b)%K <= (sq f + F) * (sq g + G).
Proof.
  intros HF HG Ha Hb. destruct a as [a1 a2], b as [b1 b2]. pose proof (sq_nonneg f) as Pf. pose proof (sq_nonneg g) as Pg.
  change (sq (((a1, a2) : CS) + ((b1, b2) : CS))%K) with ((a1 + b1) * (a1 + b1) + (a2 + b2) * (a2 + b2)). change (sq (((a1, a2) : CS))) with (a1 * a1 + a2 * a2) in Ha. change (sq (((b1, b2) : CS))) with (b1 * b1 + b2 * b2) in Hb.
  set (p := sq f) in *. set (q := sq g) in *. clearbody p q.
  set (c := 2 * (a1 * b1 + a2 * b2)). set (Y := F * q + G * p).
  assert (HY : 0 <= Y) by (unfold Y; nra).
  assert (c * c <= 4 * ((a1 * a1 + a2 * a2) * (b1 * b1 + b2 * b2))) by (unfold c; pose proof (Rle_0_sqr (a1 * b2 - a2 * b1)) as S; unfold Rsqr in S; nra).
  assert (4 * ((F * G) * (p * q)) <= Y * Y) by (unfold Y; pose proof (Rle_0_sqr (F * q - G * p)) as S; unfold Rsqr in S; nra).
  assert (c * c <= Y * Y).
  { rewrite Hb in H. assert ((a1 * a1 + a2 * a2) * (p * q) <= F * G * (p * q)) by (apply Rmult_le_compat_r; [nra|exact Ha]). lra. }
  assert (c <= Y) by (destruct (Rle_or_lt c Y) as [L|L]; [exact L|nra]).
  unfold c, Y in *. nra.
Qed.
Lemma cauchy_schwarz {X} (l : list X) f g : sq (ip l f g) <= n2 l f * n2 l g.
Proof.
  induction l as [|x l IH].
  - unfold ip, n2, sq. cbn. lra.
  - change (ip (x :: l) f g) with (kconj (f x) * g x + ip l f g)%K. replace (kconj (f x) * g x + ip l f g)%K with (ip l f g + kconj (f x) * g x)%K by ring.
    change (n2 (x :: l) f) with (sq (f x) + n2 l f). change (n2 (x :: l) g) with (sq (g x) + n2 l g).
    apply cs_step; [apply n2_nonneg|apply n2_nonneg|exact IH|]. rewrite sq_mul, sq_kconj. reflexivity.
Qed.
Lemma n2_add {X} (l : list X) f g : n2 l (fun x => f x + g x)%K = n2 l f + n2 l g + 2 * Cre (ip l f g).
Proof.
  induction l as [|x l IH]; [unfold n2, ip; cbn; ring|]. unfold n2, ip in *. rewrite !rs_cons, csum_cons, IH.
  assert (CA : forall a b : CS, Cre (a + b)%K = Cre a + Cre b) by reflexivity. rewrite CA. unfold sq. cbn. unfold Cre, Cim. ring.
Qed.
Lemma n2_sub {X} (l : list X) f g : n2 l (fun x => f x - g x)%K = n2 l f + n2 l g - 2 * Cre (ip l f g).
Proof.
  induction l as [|x l IH]; [unfold n2, ip; cbn; ring|]. unfold n2, ip in *. rewrite !rs_cons, csum_cons, IH.
  assert (CA : forall a b : CS, Cre (a + b)%K = Cre a + Cre b) by reflexivity. rewrite CA. unfold sq. cbn. unfold Cre, Cim. ring.
Qed.
Lemma n2_mul {X} (l : list X) c f : n2 l (fun x => c * f x)%K = sq c * n2 l f.
Proof. induction l as [|x l IH]; [unfold n2; cbn; ring|]. unfold n2 in *. rewrite !rs_cons, IH, sq_mul. ring. Qed.
Lemma re_le_sqrt z B : sq z <= B -> Cre z <= sqrt B.
Proof.
  intros H. assert (0 <= B) by (pose proof (sq_nonneg z); lra). destruct (Rle_or_lt (Cre z) (sqrt B)) as [L|L]; [exact L|].
  pose proof (sqrt_pos B). pose proof (sqrt_sqrt B H0). unfold sq in H. nra.
Qed.
Lemma triangle {X} (l : list X) f g : sqrt (n2 l (fun x => f x + g x)%K) <= sqrt (n2 l f) + sqrt (n2 l g).
Proof.
  pose proof (n2_nonneg l f) as F. pose proof (n2_nonneg l g) as G.
  pose proof (re_le_sqrt _ _ (cauchy_schwarz l f g)) as C. rewrite sqrt_mult in C by assumption.
  pose proof (sqrt_pos (n2 l f)). pose proof (sqrt_pos (n2 l g)). pose proof (sqrt_sqrt _ F). pose proof (sqrt_sqrt _ G).
  rewrite <- (sqrt_square (sqrt (n2 l f) + sqrt (n2 l g))) by lra. apply sqrt_le_1_alt. rewrite n2_add. nra.
Qed.

(** ** The model *)
Definition ent2 (sh : list (list nat)) (A : list (list nat) -> CS) : R := n2 (enum sh) A.
Lemma np_norm_sq (t : nd CS) : np_norm t = sqrt (Cre (abs2 t)).
Proof. unfold np_norm, abs2. do 2 f_equal. apply msum_ext. intros i _. apply sq_conj. Qed.
Section N.
Variable qr : nd CS -> res (nd CS * nd CS).
Hypothesis Hq : qr_sound qr.
Lemma mnorm_sq x : mnorm qr x = do p <- norm_sq qr x; Ok (sqrt (Cre (fst p)), snd p).
Proof.
  unfold mnorm, norm_sq. destruct (canonicalize qr x CANone CANone) as [z|e]; [|reflexivity]. cbn [bind]. destruct (canonical_form z) as [cl cr].
  destruct (cr =? 1)%Z; [|destruct (cl =? Z.of_nat (llen z) - 1)%Z; [|reflexivity]].
  - destruct (pyget (lts z) 0) as [t|e]; [|reflexivity]. cbn. rewrite np_norm_sq. reflexivity.
  - destruct (pyget (lts z) (-1)) as [t|e]; [|reflexivity]. cbn. rewrite np_norm_sq. reflexivity.
Qed.
Lemma norm2_ent (x : ltens CS) : norm2_of x = toC (ent2 (mshape x) (entry x)).
Proof. unfold norm2_of, inner_of, ent2. rewrite msums_enum. exact (ip_n2 (enum (mshape x)) (entry x)). Qed.
Lemma dist2_ent (x y : ltens CS) : dist2_of x y = toC (ent2 (mshape x) (fun is => entry x is - entry y is)%K).
Proof. unfold dist2_of, ent2. rewrite msums_enum. exact (ip_n2 (enum (mshape x)) (fun is => entry x is - entry y is)%K). Qed.
Lemma mnorm_dense x : mpa_pos x -> cform_ok x -> canon_true x ->
  outc (qr_fails qr) (mnorm qr x) (fun p => fst p = sqrt (ent2 (mshape x) (entry x)) /\
    mpa_pos (snd p) /\ cform_ok (snd p) /\ canon_true (snd p) /\ mshape (snd p) = mshape x /\ to_array (snd p) = to_array x).
Proof.
  intros Hx Hc Ht. rewrite mnorm_sq. eapply outc_bind; [apply (norm_dense qr Hq x Hx Hc Ht)|]. intros [v z] (H1 & H2 & H3 & H4 & H5 & H6 & _). cbn [fst snd] in *.
  apply outc_ok. cbn [fst snd]. split; [|repeat (split; [assumption|]); assumption]. rewrite H1. f_equal. exact (f_equal Cre (norm2_ent x)).
Qed.
Lemma mnormdist_eq x y : mnormdist qr x y = do v <- normdist_sq qr x y; Ok (sqrt (Cre v)).
Proof.
  unfold mnormdist, normdist_sq. destruct (msub x y) as [d|e]; [|reflexivity]. cbn [bind]. rewrite mnorm_sq. destruct (norm_sq qr d) as [p|e]; reflexivity.
Qed.
Lemma mnormdist_dense x y : mpa_pos x -> mpa_pos y -> cform_ok y -> mshape x = mshape y ->
  outc (qr_fails qr) (mnormdist qr x y) (fun v => v = sqrt (ent2 (mshape x) (fun is => entry x is - entry y is)%K)).
Proof.
  intros Hx Hy Hc E. rewrite mnormdist_eq. eapply outc_bind; [apply (normdist_dense qr Hq x y Hx Hy Hc E)|]. intros v ->. apply outc_ok. f_equal. exact (f_equal Cre (dist2_ent x y)).
Qed.
End N.

Definition cabs (z : CS) : R := sqrt (Cre z * Cre z + Cim z * Cim z).
Lemma cabs_sq z : cabs z = sqrt (sq z). Proof. reflexivity. Qed.
Section M.
Variable qr : nd CS -> res (nd CS * nd CS).
Hypothesis Hq : qr_sound qr.
Lemma ent2_nonneg sh A : 0 <= ent2 sh A. Proof. apply n2_nonneg. Qed.
Lemma ent2_ext sh A B : (forall is, valid_idx is sh -> A is = B is) -> ent2 sh A = ent2 sh B.
Proof. intros H. apply n2_ext. intros is Hi. apply H, In_enum, Hi. Qed.
Lemma ent2_zero sh A : ent2 sh A = 0 <-> forall is, valid_idx is sh -> A is = k0.
Proof.
  split; [intros H is Hi; apply (n2_zero _ _ H), In_enum, Hi|]. intros H. rewrite (ent2_ext sh A (fun _ => k0) H). unfold ent2, n2.
  induction (enum sh) as [|x l IH]; [reflexivity|]. rewrite rs_cons, IH. unfold sq. cbn. ring.
Qed.
Lemma mnorm_val x a z : mpa_pos x -> cform_ok x -> canon_true x -> mnorm qr x = Ok (a, z) -> a = sqrt (ent2 (mshape x) (entry x)).
Proof. intros H1 H2 H3 E. exact (proj1 (outc_inv _ _ _ _ (mnorm_dense qr Hq x H1 H2 H3) E)). Qed.
Lemma mnormdist_val x y v : mpa_pos x -> mpa_pos y -> cform_ok y -> mshape x = mshape y -> mnormdist qr x y = Ok v ->
  v = sqrt (ent2 (mshape x) (fun is => entry x is - entry y is)%K).
Proof. intros H1 H2 H3 H4 E. exact (outc_inv _ _ _ _ (mnormdist_dense qr Hq x y H1 H2 H3 H4) E). Qed.
Lemma minner_val x y i : mpa_pos x -> mpa_pos y -> mshape x = mshape y -> minner x y = Ok i -> get i [] = ip (enum (mshape x)) (entry x) (entry y).
Proof.
  intros Hx Hy E Ei. destruct (minner_spec x y (proj1 Hx) (proj1 Hy) (mpa_pos_bonds x Hx) (mpa_pos_bonds y Hy) E) as (a & Ea & _ & _ & V).
  rewrite Ea in Ei. inversion Ei; subst a. rewrite V, msums_enum. unfold ip. apply csum_ext. intros is Hi. apply In_enum in Hi.
  rewrite (entry_amp x is (proj1 Hx) Hi), (entry_amp y is (proj1 Hy)) by (rewrite <- E; exact Hi). reflexivity.
Qed.
Lemma add_form (x y z : ltens CS) : mpa_pos x -> mpa_pos y -> mshape x = mshape y -> madd x y = Ok z ->
  mpa_pos z /\ cform_ok z /\ canon_true z /\ mshape z = mshape x /\ forall is, valid_idx is (mshape x) -> entry z is = (entry x is + entry y is)%K.
Proof.
  intros Hx Hy E Ez. destruct (madd_spec x y (proj1 Hx) (proj1 Hy) E) as [d [Ed [Hd [Sd [_ [Ld [Rd Vd]]]]]]]. rewrite Ed in Ez. inversion Ez; subst d.
  assert (L : llen z = llen x) by (rewrite <- (mshape_length z), <- (mshape_length x), Sd; reflexivity).
  assert (L0 : (0 < llen x)%nat) by (destruct Hx as [[Hx _] _]; unfold llen; destruct (lts x); [congruence|cbn; lia]).
  split; [exact (madd_pos x y z Hx Hy E Ed)|]. split; [unfold cform_ok, cf_ok; rewrite Ld, Rd, L; lia|].
  split; [unfold canon_true; rewrite Ld, Rd, L; split; intros j Hj1 Hj2; lia|]. split; [exact Sd|]. intros is Hi.
  rewrite (entry_amp z is Hd) by (rewrite Sd; exact Hi). rewrite Vd by exact Hi. rewrite (entry_amp x is (proj1 Hx) Hi), (entry_amp y is (proj1 Hy)) by (rewrite <- E; exact Hi). reflexivity.
Qed.
Lemma mul_form (x z : ltens CS) f : mpa_pos x -> cform_ok x -> canon_true x -> cform_lt x -> mmul x f = Ok z ->
  mpa_pos z /\ cform_ok z /\ canon_true z /\ mshape z = mshape x /\ forall is, valid_idx is (mshape x) -> entry z is = (f * entry x is)%K.
Proof.
  intros Hx Hc Ht Hl Ez. destruct (mmul_spec x f (proj1 Hx) Hc) as [w [Ew [Hw [Sw [_ [Cw [Tw Vw]]]]]]]. rewrite Ew in Ez. inversion Ez; subst w.
  split; [exact (mmul_pos x z f Hx Hc Ew)|].
  assert (L : llen z = llen x) by (rewrite <- (mshape_length z), <- (mshape_length x), Sw; reflexivity).
  split; [unfold canonical_form in Cw; injection Cw as C1 C2; unfold cform_ok, cf_ok in *; rewrite C1, C2, L; exact Hc|]. split; [exact (Tw Ht Hl)|]. split; [exact Sw|].
  intros is Hi. rewrite (entry_amp z is Hw) by (rewrite Sw; exact Hi). rewrite Vw by exact Hi. rewrite (entry_amp x is (proj1 Hx) Hi). reflexivity.
Qed.

Lemma geom_cs x y a b x' y' i : mpa_pos x -> cform_ok x -> canon_true x -> mpa_pos y -> cform_ok y -> canon_true y -> mshape x = mshape y ->
  mnorm qr x = Ok (a, x') -> mnorm qr y = Ok (b, y') -> minner x y = Ok i -> cabs (get i []) <= a * b.
Proof.
  intros X1 X2 X3 Y1 Y2 Y3 E Ea Eb Ei. rewrite (mnorm_val _ _ _ X1 X2 X3 Ea), (mnorm_val _ _ _ Y1 Y2 Y3 Eb), (minner_val _ _ _ X1 Y1 E Ei), <- E.
  rewrite <- sqrt_mult by apply ent2_nonneg. apply sqrt_le_1_alt. apply cauchy_schwarz.
Qed.
Lemma geom_add x y z a b c x' y' z' : mpa_pos x -> cform_ok x -> canon_true x -> mpa_pos y -> cform_ok y -> canon_true y -> mshape x = mshape y ->
  mnorm qr x = Ok (a, x') -> mnorm qr y = Ok (b, y') -> madd x y = Ok z -> mnorm qr z = Ok (c, z') -> c <= a + b.
Proof.
  intros X1 X2 X3 Y1 Y2 Y3 E Ea Eb Ez Ec. destruct (add_form x y z X1 Y1 E Ez) as (Z1 & Z2 & Z3 & Z4 & Z5).
  rewrite (mnorm_val _ _ _ X1 X2 X3 Ea), (mnorm_val _ _ _ Y1 Y2 Y3 Eb), (mnorm_val _ _ _ Z1 Z2 Z3 Ec), <- E, Z4, (ent2_ext _ _ _ Z5). apply triangle.
Qed.
Lemma geom_mul x z f a c x' z' : mpa_pos x -> cform_ok x -> canon_true x -> cform_lt x ->
  mnorm qr x = Ok (a, x') -> mmul x f = Ok z -> mnorm qr z = Ok (c, z') -> c = cabs f * a.
Proof.
  intros X1 X2 X3 X4 Ea Ez Ec. destruct (mul_form x z f X1 X2 X3 X4 Ez) as (Z1 & Z2 & Z3 & Z4 & Z5).
  rewrite (mnorm_val _ _ _ X1 X2 X3 Ea), (mnorm_val _ _ _ Z1 Z2 Z3 Ec), Z4, (ent2_ext _ _ _ Z5). unfold ent2. rewrite n2_mul.
  rewrite sqrt_mult by (try apply sq_nonneg; apply n2_nonneg). reflexivity.
Qed.
Lemma sqrt_zero_iff r : 0 <= r -> (sqrt r = 0 <-> r = 0).
Proof. intros H. split; [intros E; exact (sqrt_eq_0 r H E)|intros ->; apply sqrt_0]. Qed.
Lemma geom_zero x y v : mpa_pos x -> mpa_pos y -> cform_ok y -> mshape x = mshape y -> mnormdist qr x y = Ok v -> (v = 0 <-> to_array x = to_array y).
Proof.
  intros X1 Y1 Y2 E Ev. rewrite (mnormdist_val _ _ _ X1 Y1 Y2 E Ev), sqrt_zero_iff by apply ent2_nonneg. rewrite ent2_zero. split.
  - intros H. symmetry. apply (entries_array x y (proj1 X1) (proj1 Y1)); [congruence|]. intros is Hi. specialize (H is Hi).
    replace (entry x is) with (entry x is - entry y is + entry y is)%K by ring. rewrite H. ring.
  - intros H is _. rewrite (array_entries y x is H). ring.
Qed.
Lemma geom_symm x y v w : mpa_pos x -> cform_ok x -> mpa_pos y -> cform_ok y -> mshape x = mshape y -> mnormdist qr x y = Ok v -> mnormdist qr y x = Ok w -> v = w.
Proof.
  intros X1 X2 Y1 Y2 E Ev Ew. rewrite (mnormdist_val _ _ _ X1 Y1 Y2 E Ev), (mnormdist_val _ _ _ Y1 X1 X2 (eq_sym E) Ew), <- E. f_equal.
  unfold ent2, n2. apply rs_ext. intros is _. unfold sq. cbn. unfold Cre, Cim. ring.
Qed.
Lemma geom_tri x y z u v w : mpa_pos x -> mpa_pos y -> cform_ok y -> mpa_pos z -> cform_ok z -> mshape x = mshape y -> mshape y = mshape z ->
  mnormdist qr x z = Ok u -> mnormdist qr x y = Ok v -> mnormdist qr y z = Ok w -> u <= v + w.
Proof.
  intros X1 Y1 Y2 Z1 Z2 E F Eu Ev Ew. rewrite (mnormdist_val _ _ _ X1 Z1 Z2 (eq_trans E F) Eu), (mnormdist_val _ _ _ X1 Y1 Y2 E Ev), (mnormdist_val _ _ _ Y1 Z1 Z2 F Ew), <- E.
  rewrite (ent2_ext _ _ (fun is => (entry x is - entry y is) + (entry y is - entry z is))%K) by (intros is _; ring).
  exact (triangle (enum (mshape x)) (fun is => entry x is - entry y is)%K (fun is => entry y is - entry z is)%K).
Qed.
Lemma geom_rev x y a b v x' y' : mpa_pos x -> cform_ok x -> canon_true x -> mpa_pos y -> cform_ok y -> canon_true y -> mshape x = mshape y ->
  mnorm qr x = Ok (a, x') -> mnorm qr y = Ok (b, y') -> mnormdist qr x y = Ok v -> Rabs (a - b) <= v.
Proof.
  intros X1 X2 X3 Y1 Y2 Y3 E Ea Eb Ev. rewrite (mnorm_val _ _ _ X1 X2 X3 Ea), (mnorm_val _ _ _ Y1 Y2 Y3 Eb), (mnormdist_val _ _ _ X1 Y1 Y2 E Ev), <- E. apply Rabs_le. split.
  - pose proof (triangle (enum (mshape x)) (fun is => entry y is - entry x is)%K (entry x)) as T. cbn beta in T.
    rewrite (n2_ext _ _ (entry y)) in T by (intros is _; ring).
    replace (n2 (enum (mshape x)) (fun is => entry y is - entry x is)%K) with (n2 (enum (mshape x)) (fun is => entry x is - entry y is)%K) in T
      by (apply rs_ext; intros is _; unfold sq; cbn; unfold Cre, Cim; ring). unfold ent2. lra.
  - pose proof (triangle (enum (mshape x)) (fun is => entry x is - entry y is)%K (entry y)) as T. cbn beta in T.
    rewrite (n2_ext _ _ (entry x)) in T by (intros is _; ring). unfold ent2. lra.
Qed.
Lemma geom_alt x y : mpa_pos x -> cform_ok x -> canon_true x -> mpa_pos y -> cform_ok y -> canon_true y -> mshape x = mshape y ->
  outc (qr_fails qr) (mnormdist_alt qr x y) (fun v => v = sqrt (ent2 (mshape x) (fun is => entry x is - entry y is)%K)).
Proof.
  intros X1 X2 X3 Y1 Y2 Y3 E. unfold mnormdist_alt.
  eapply outc_bind; [apply (mnorm_dense qr Hq x X1 X2 X3)|]. intros [a x'] (A1 & A2 & _ & _ & A5 & A6). cbn [fst snd] in *.
  eapply outc_bind; [apply (mnorm_dense qr Hq y Y1 Y2 Y3)|]. intros [b y'] (B1 & B2 & _ & _ & B5 & B6). cbn [fst snd] in *.
  assert (E' : mshape x' = mshape y') by congruence.
  destruct (minner_spec x' y' (proj1 A2) (proj1 B2) (mpa_pos_bonds x' A2) (mpa_pos_bonds y' B2) E') as (i & Ei & _). rewrite Ei. cbn [bind].
  apply outc_ok. rewrite (minner_val x' y' i A2 B2 E' Ei), A5, A1, B1, !sqrt_sqrt, <- E by apply ent2_nonneg. f_equal. unfold ent2. rewrite n2_sub.
  do 2 f_equal. f_equal. apply csum_ext. intros is _. rewrite (array_entries x x' is A6), (array_entries y y' is B6). reflexivity.
Qed.
End M.
