(** Geometry of inner, norm and normdist over the complex numbers (C83). *)
From Coq Require Import Reals Lra.
From Verif Require Import Oracles PfTrunc NormReal PfGeom ExVarThree Props_Canon Examples.
Local Open Scope R_scope.

(** norm returns the non-negative real number whose square is the sum of |entry|^2; it is
    0 only for the zero array; the argument keeps its array. *)
Theorem C83_norm (qr : nd CS -> res (nd CS * nd CS)) (x : ltens CS) :
  qr_sound qr -> mpa_pos x -> cform_ok x -> canon_true x ->
  outc (qr_fails qr) (mnorm qr x) (fun p => 0 <= fst p /\
    toC (fst p * fst p) = msums (mshape x) (fun is => kconj (entry x is) * entry x is)%K /\
    (fst p = 0 <-> forall is, valid_idx is (mshape x) -> entry x is = k0) /\
    mpa_pos (snd p) /\ cform_ok (snd p) /\ canon_true (snd p) /\ mshape (snd p) = mshape x /\ to_array (snd p) = to_array x).
Proof.
  intros Hq Hx Hc Ht. eapply outc_weaken; [apply (mnorm_dense qr Hq x Hx Hc Ht)|auto|]. intros [a z] (-> & H). cbn [fst snd] in *.
  split; [apply sqrt_pos|]. split; [rewrite sqrt_sqrt by apply ent2_nonneg; symmetry; exact (norm2_ent x)|].
  split; [rewrite sqrt_zero_iff by apply ent2_nonneg; apply ent2_zero|exact H].
Qed.
Print Assumptions C83_norm.

(** |inner(x, y)| <= norm(x) norm(y) *)
Theorem C83_cauchy_schwarz (qr : nd CS -> res (nd CS * nd CS)) (x y : ltens CS) a b x' y' i :
  qr_sound qr -> mpa_pos x -> cform_ok x -> canon_true x -> mpa_pos y -> cform_ok y -> canon_true y -> mshape x = mshape y ->
  mnorm qr x = Ok (a, x') -> mnorm qr y = Ok (b, y') -> minner x y = Ok i ->
  sqrt (Cre (get i []) * Cre (get i []) + Cim (get i []) * Cim (get i [])) <= a * b.
Proof. intros Hq. exact (geom_cs qr Hq x y a b x' y' i). Qed.
Print Assumptions C83_cauchy_schwarz.

(** norm(x + y) <= norm(x) + norm(y) *)
Theorem C83_norm_add (qr : nd CS -> res (nd CS * nd CS)) (x y z : ltens CS) a b c x' y' z' :
  qr_sound qr -> mpa_pos x -> cform_ok x -> canon_true x -> mpa_pos y -> cform_ok y -> canon_true y -> mshape x = mshape y ->
  mnorm qr x = Ok (a, x') -> mnorm qr y = Ok (b, y') -> madd x y = Ok z -> mnorm qr z = Ok (c, z') -> c <= a + b.
Proof. intros Hq. exact (geom_add qr Hq x y z a b c x' y' z'). Qed.
Print Assumptions C83_norm_add.

(** norm(f * x) = |f| norm(x) *)
Theorem C83_norm_mul (qr : nd CS -> res (nd CS * nd CS)) (x z : ltens CS) f a c x' z' :
  qr_sound qr -> mpa_pos x -> cform_ok x -> canon_true x -> cform_lt x ->
  mnorm qr x = Ok (a, x') -> mmul x f = Ok z -> mnorm qr z = Ok (c, z') -> c = sqrt (Cre f * Cre f + Cim f * Cim f) * a.
Proof. intros Hq. exact (geom_mul qr Hq x z f a c x' z'). Qed.
Print Assumptions C83_norm_mul.

(** normdist is a metric on the arrays: defined, non-negative, zero exactly for MPArrays of
    the same array, symmetric, and satisfying the triangle inequality. *)
Theorem C83_normdist (qr : nd CS -> res (nd CS * nd CS)) (x y : ltens CS) :
  qr_sound qr -> mpa_pos x -> mpa_pos y -> cform_ok y -> mshape x = mshape y ->
  outc (qr_fails qr) (mnormdist qr x y) (fun v => 0 <= v /\
    toC (v * v) = msums (mshape x) (fun is => kconj (entry x is - entry y is) * (entry x is - entry y is))%K /\
    (v = 0 <-> to_array x = to_array y)).
Proof.
  intros Hq Hx Hy Hc E. destruct (mnormdist_dense qr Hq x y Hx Hy Hc E) as [(v & Ev & Hv)|H]; [|right; exact H].
  left. exists v. split; [exact Ev|]. split; [rewrite Hv; apply sqrt_pos|]. split; [|exact (geom_zero qr Hq x y v Hx Hy Hc E Ev)].
  rewrite Hv, sqrt_sqrt by apply ent2_nonneg. symmetry. exact (dist2_ent x y).
Qed.
Print Assumptions C83_normdist.
Theorem C83_normdist_symmetric (qr : nd CS -> res (nd CS * nd CS)) (x y : ltens CS) v w :
  qr_sound qr -> mpa_pos x -> cform_ok x -> mpa_pos y -> cform_ok y -> mshape x = mshape y ->
  mnormdist qr x y = Ok v -> mnormdist qr y x = Ok w -> v = w.
Proof. intros Hq. exact (geom_symm qr Hq x y v w). Qed.
Print Assumptions C83_normdist_symmetric.
Theorem C83_normdist_triangle (qr : nd CS -> res (nd CS * nd CS)) (x y z : ltens CS) u v w :
  qr_sound qr -> mpa_pos x -> mpa_pos y -> cform_ok y -> mpa_pos z -> cform_ok z -> mshape x = mshape y -> mshape y = mshape z ->
  mnormdist qr x z = Ok u -> mnormdist qr x y = Ok v -> mnormdist qr y z = Ok w -> u <= v + w.
Proof. intros Hq. exact (geom_tri qr Hq x y z u v w). Qed.
Print Assumptions C83_normdist_triangle.
(** |norm(x) - norm(y)| <= normdist(x, y) *)
Theorem C83_norm_lipschitz (qr : nd CS -> res (nd CS * nd CS)) (x y : ltens CS) a b v x' y' :
  qr_sound qr -> mpa_pos x -> cform_ok x -> canon_true x -> mpa_pos y -> cform_ok y -> canon_true y -> mshape x = mshape y ->
  mnorm qr x = Ok (a, x') -> mnorm qr y = Ok (b, y') -> mnormdist qr x y = Ok v -> Rabs (a - b) <= v.
Proof. intros Hq. exact (geom_rev qr Hq x y a b v x' y'). Qed.
Print Assumptions C83_norm_lipschitz.

(** The implementation that is commented out in the code (sqrt(norm(x)^2 + norm(y)^2 -
    2 Re inner(x, y)), without forming the sum) returns the same number. *)
Theorem C83_alternative (qr : nd CS -> res (nd CS * nd CS)) (x y : ltens CS) v w :
  qr_sound qr -> mpa_pos x -> cform_ok x -> canon_true x -> mpa_pos y -> cform_ok y -> canon_true y -> mshape x = mshape y ->
  mnormdist qr x y = Ok v -> mnormdist_alt qr x y = Ok w -> v = w.
Proof.
  intros Hq X1 X2 X3 Y1 Y2 Y3 E Ev Ew. rewrite (mnormdist_val qr Hq x y v X1 Y1 Y2 E Ev).
  symmetry. exact (outc_inv _ _ _ _ (geom_alt qr Hq x y X1 X2 X3 Y1 Y2 Y3 E) Ew).
Qed.
Print Assumptions C83_alternative.

(** ** Concrete runs: two sites for norm and inner, one site of two legs for normdist. *)
Definition ge_x : ltens CS := mkLt [mkNd [1; 2; 2]%nat (cs [3; 0; 0; 4]); mkNd [2; 2; 1]%nat (cs [1; 0; 0; 1])] 0 1.
Definition ge_y : ltens CS := mkLt [mkNd [1; 2; 1]%nat (cs [1; 2]); mkNd [1; 2; 1]%nat (cs [0; 1])] 0 1.
Definition ge_u : ltens CS := mkLt [mkNd [1; 2; 2; 1]%nat (cs [4; 1; 2; 4])] 0 1.
Definition ge_v : ltens CS := mkLt [mkNd [1; 2; 2; 1]%nat (cs [1; 1; 2; 0])] 0 1.
Lemma ge_one (x : ltens CS) t : x = mkLt [t] 0 1 -> bonds [t] 1 1 -> (0 < size (shp t))%nat -> mpa_pos x /\ cform_ok x /\ canon_true x.
Proof.
  intros -> HB HP. split; [split; [split; [discriminate|exact HB]|repeat constructor; exact HP]|]. split; [unfold cform_ok, cf_ok; cbn; lia|].
  split; cbn; intros k H1 H2; [lia|]. destruct k; [lia|cbn in H2; lia].
Qed.
Example C83_ex qr :
  (mpa_pos ge_x /\ cform_ok ge_x /\ canon_true ge_x) /\ (mpa_pos ge_y /\ cform_ok ge_y /\ canon_true ge_y) /\ mshape ge_x = mshape ge_y /\
  mnorm qr ge_x = Ok (5, ge_x) /\ (exists b, mnorm qr ge_y = Ok (b, ge_y) /\ b * b = 5) /\ (exists i, minner ge_x ge_y = Ok i /\ get i [] = toC 8) /\
  (mpa_pos ge_u /\ cform_ok ge_u /\ canon_true ge_u) /\ (mpa_pos ge_v /\ cform_ok ge_v /\ canon_true ge_v) /\
  mnormdist qr ge_u ge_v = Ok 5 /\ mnormdist qr ge_u ge_u = Ok 0.
Proof.
  assert (S25 : forall r, r = 5 * 5 -> sqrt r = 5) by (intros r ->; apply sqrt_square; lra).
  assert (N : forall t, np_norm t = sqrt (Cre (msum (shp t) (fun i => toC (Cre (get t i) * Cre (get t i) + Cim (get t i) * Cim (get t i)))))) by reflexivity.
  split; [|split; [|split; [reflexivity|split; [|split; [|split; [|split; [|split; [|split]]]]]]]].
  - split; [split; [split; [discriminate|apply bondsb_iff; reflexivity]|repeat constructor]|]. split; [unfold cform_ok, cf_ok; cbn; lia|].
    split; cbn; [intros k H; lia|]. intros [|[|k]] H1 H2; [lia| |cbn in H2; lia]. intros c d Hc Hd. cbn in Hc, Hd. four; cf.
  - split; [split; [split; [discriminate|apply bondsb_iff; reflexivity]|repeat constructor]|]. split; [unfold cform_ok, cf_ok; cbn; lia|].
    split; cbn; [intros k H; lia|]. intros [|[|k]] H1 H2; [lia| |cbn in H2; lia]. intros c d Hc Hd. cbn in Hc, Hd.
    assert (c = 0%nat) by lia. assert (d = 0%nat) by lia. subst. cf.
  - transitivity (Ok (np_norm (mkNd [1; 2; 2]%nat (cs [3; 0; 0; 4])), ge_x) : res (R * ltens CS)); [reflexivity|]. do 2 f_equal. rewrite N. apply S25. lazy -[Rplus Rmult Rminus Ropp IZR]. ring.
  - exists (np_norm (mkNd [1; 2; 1]%nat (cs [1; 2]))). split; [reflexivity|]. rewrite N.
    match goal with |- sqrt ?r * _ = _ => assert (E : r = 5) by (lazy -[Rplus Rmult Rminus Ropp IZR]; ring); rewrite E end. apply sqrt_sqrt. lra.
  - eexists. split; [reflexivity|]. apply cplx_eq; lazy -[Rplus Rmult Rminus Ropp IZR]; ring.
  - apply (ge_one _ _ eq_refl); [apply bondsb_iff; reflexivity|unfold lt; vm_compute; repeat constructor].
  - apply (ge_one _ _ eq_refl); [apply bondsb_iff; reflexivity|unfold lt; vm_compute; repeat constructor].
  - unfold mnormdist. nx (mkLt [mkNd [1; 2; 2; 1]%nat (cs [3; 0; 0; 4])] 0 1).
    transitivity (Ok (np_norm (mkNd [1; 2; 2; 1]%nat (cs [3; 0; 0; 4]))) : res R); [reflexivity|]. f_equal. rewrite N. apply S25. lazy -[Rplus Rmult Rminus Ropp IZR]. ring.
  - unfold mnormdist. nx (mkLt [mkNd [1; 2; 2; 1]%nat (cs [0; 0; 0; 0])] 0 1).
    transitivity (Ok (np_norm (mkNd [1; 2; 2; 1]%nat (cs [0; 0; 0; 0]))) : res R); [reflexivity|]. f_equal. rewrite N. transitivity (sqrt 0); [f_equal; lazy -[Rplus Rmult Rminus Ropp IZR]; ring|apply sqrt_0].
Qed.
