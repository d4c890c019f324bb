(** The lower bound: no vector has an energy below the sum over the angles of its sector. *)
From Coq Require Import Reals Lra Lia.
From Verif Require Import Cplx CanonSpec PfPhysics PfReindex PfSymm PfCxyE0 PfXyFock PfXyTrig.
Open Scope R_scope.

Lemma rsumn_swap n m (f : nat -> nat -> R) : rsumn n (fun i => rsumn m (fun j => f i j)) = rsumn m (fun j => rsumn n (fun i => f i j)).
Proof. induction n as [|n IH]; cbn [rsumn]; [symmetry; induction m as [|m IH]; cbn; [reflexivity|]; rewrite IH; ring|]. rewrite IH, <- rsumn_add. reflexivity. Qed.
Lemma rsumn_zero n f : (forall k, (k < n)%nat -> f k = 0) -> rsumn n f = 0.
Proof. intros H. rewrite (rsumn_ext n f (fun _ => 0) H), rsumn_const. ring. Qed.
Lemma rsumn_single n j f : (j < n)%nat -> (forall k, (k < n)%nat -> k <> j -> f k = 0) -> rsumn n f = f j.
Proof.
  induction n as [|n IH]; intros Hj H; [lia|]. cbn. destruct (Nat.eq_dec j n) as [->|Ne].
  - rewrite rsumn_zero by (intros; apply H; lia). ring.
  - rewrite IH by (try lia; intros; apply H; lia). rewrite (H n) by lia. ring.
Qed.
Lemma bigsum_rsumn n f : bigsum (K:=RS) n f = rsumn n f.
Proof. induction n as [|n IH]; [reflexivity|]. cbn [bigsum rsumn]. rewrite IH. reflexivity. Qed.

Section Low.
Variable N : nat.
(** Real sums over the configurations *)
Definition csum (f : list nat -> R) : R := rsumn (size (conf N)) (fun n => f (unravel (conf N) n)).
Lemma csum_msum f : csum f = msum (K:=RS) (conf N) f.
Proof. rewrite msum_flat, bigsum_rsumn. reflexivity. Qed.
Lemma csum_ext f g : (forall is, inr is (conf N) -> f is = g is) -> csum f = csum g.
Proof. intros H. apply rsumn_ext. intros k Hk. apply H. apply unravel_inr. exact Hk. Qed.
Lemma csum_add f g : csum (fun is => f is + g is) = csum f + csum g.
Proof. apply rsumn_add. Qed.
Lemma csum_mul c f : csum (fun is => c * f is) = c * csum f.
Proof. apply rsumn_mul_l. Qed.
Lemma csum_swap n (f : nat -> list nat -> R) : csum (fun is => rsumn n (fun j => f j is)) = rsumn n (fun j => csum (f j)).
Proof. apply rsumn_swap. Qed.
Lemma csum_nonneg f : (forall is, inr is (conf N) -> 0 <= f is) -> 0 <= csum f.
Proof. intros H. pose proof (rsumn_le (size (conf N)) (fun _ => 0) (fun n => f (unravel (conf N) n)) ltac:(intros k Hk; apply H, unravel_inr; exact Hk)) as Q. rewrite rsumn_const in Q. unfold csum. lra. Qed.
Lemma csum_fl j f : csum (fun is => f (fl j is)) = csum f.
Proof. rewrite !csum_msum. symmetry. apply (msum_reindex (K:=RS) (conf N) (conf N) (fl j) (fl j)); intros i Hi; (split; [apply fl_inr; exact Hi|apply (fl_fl N); exact Hi]). Qed.

Notation vec := (list nat -> R).
Notation sgr := (@sg RS).
Definition xr j (v : vec) : vec := fun is => sgr j is * v (fl j is).
Definition yr j (v : vec) : vec := fun is => sgr (S j) is * v (fl j is).
Definition ip (u w : vec) : R := csum (fun is => u is * w is).
Lemma sgr_sq j is : sgr j is * sgr j is = 1.
Proof. exact (@sg_sq RS j is). Qed.
Lemma sgr_fl l j is : inr is (conf N) -> (l <= N)%nat -> sgr l (fl j is) = if (j <? l)%nat then - sgr l is else sgr l is.
Proof. exact (@sg_fl RS N l j is). Qed.
Lemma xr_ip j l v : (j < N)%nat -> (l < N)%nat -> ip (xr j v) (xr l v) = if Nat.eqb j l then ip v v else 0.
Proof.
  intros Hj Hl. unfold ip, xr. destruct (Nat.eqb_spec j l) as [<-|Ne].
  - rewrite <- (csum_fl j (fun is => v is * v is)). apply csum_ext. intros is _. transitivity ((sgr j is * sgr j is) * (v (fl j is) * v (fl j is))); [ring|]. rewrite sgr_sq. ring.
  - set (g := fun is => _). assert (E : csum g = - 1 * csum g).
    { rewrite <- csum_mul. rewrite <- (csum_fl j g), <- (csum_fl l (fun is => g (fl j is))). apply csum_ext. intros is Hi. unfold g. 
      rewrite (fl_fl N) by (apply fl_inr; exact Hi). rewrite (fl_comm l j (fl l is)), (fl_fl N l is) by exact Hi. rewrite !sgr_fl by (try apply fl_inr; assumption || lia).
      destruct (Nat.ltb_spec j j), (Nat.ltb_spec l l), (Nat.ltb_spec j l), (Nat.ltb_spec l j); try lia; ring. }
    lra.
Qed.
Lemma yr_ip j l v : (j < N)%nat -> (l < N)%nat -> ip (yr j v) (yr l v) = if Nat.eqb j l then ip v v else 0.
Proof.
  intros Hj Hl. unfold ip, yr. destruct (Nat.eqb_spec j l) as [<-|Ne].
  - rewrite <- (csum_fl j (fun is => v is * v is)). apply csum_ext. intros is _. transitivity ((sgr (S j) is * sgr (S j) is) * (v (fl j is) * v (fl j is))); [ring|]. rewrite sgr_sq. ring.
  - set (g := fun is => _). assert (E : csum g = - 1 * csum g).
    { rewrite <- csum_mul. rewrite <- (csum_fl j g), <- (csum_fl l (fun is => g (fl j is))). apply csum_ext. intros is Hi. unfold g. 
      rewrite (fl_fl N) by (apply fl_inr; exact Hi). rewrite (fl_comm l j (fl l is)), (fl_fl N l is) by exact Hi. rewrite !sgr_fl by (try apply fl_inr; assumption || lia).
      destruct (Nat.ltb_spec j (S j)), (Nat.ltb_spec l (S l)), (Nat.ltb_spec j (S l)), (Nat.ltb_spec l (S j)); try lia; ring. }
    lra.
Qed.
Lemma xr_adj j u w : (j < N)%nat -> ip u (xr j w) = ip (xr j u) w.
Proof.
  intros Hj. unfold ip, xr. rewrite <- (csum_fl j (fun is => sgr j is * u (fl j is) * w is)). apply csum_ext. intros is Hi. rewrite (fl_fl N) by exact Hi. rewrite sgr_fl by (assumption || lia). rewrite Nat.ltb_irrefl. ring.
Qed.
Lemma ip_sum n m (p q : nat -> R) (a b : nat -> vec) :
  ip (fun is => rsumn n (fun j => p j * a j is)) (fun is => rsumn m (fun l => q l * b l is)) = rsumn n (fun j => rsumn m (fun l => p j * q l * ip (a j) (b l))).
Proof.
  unfold ip. transitivity (csum (fun is => rsumn n (fun j => rsumn m (fun l => p j * q l * (a j is * b l is))))).
  - apply csum_ext. intros is _. rewrite Rmult_comm, <- rsumn_mul_l. apply rsumn_ext. intros j _. rewrite Rmult_comm, <- rsumn_mul_l. apply rsumn_ext. intros l _. ring.
  - rewrite csum_swap. apply rsumn_ext. intros j _. rewrite csum_swap. apply rsumn_ext. intros l _. apply csum_mul.
Qed.

(** ** One angle *)
Definition cc k (a : nat -> vec) : vec := fun is => rsumn N (fun j => cos (k * INR j) * a j is).
Definition ss k (a : nat -> vec) : vec := fun is => rsumn N (fun j => sin (k * INR j) * a j is).
Lemma norm_cs k (a : nat -> vec) n : (forall j l, (j < N)%nat -> (l < N)%nat -> ip (a j) (a l) = if Nat.eqb j l then n else 0) ->
  ip (cc k a) (cc k a) + ip (ss k a) (ss k a) = INR N * n.
Proof.
  intros H. unfold cc, ss. rewrite !ip_sum, <- rsumn_add, <- rsumn_const. apply rsumn_ext. intros j Hj. rewrite <- rsumn_add.
  rewrite (rsumn_single N j); [|exact Hj|].
  - rewrite !H, Nat.eqb_refl by exact Hj. transitivity ((sin (k * INR j) ^ 2 + cos (k * INR j) ^ 2) * n); [ring|rewrite sc2; ring].
  - intros l Hl Ne. rewrite !H by assumption. destruct (Nat.eqb_spec j l); [congruence|]. ring.
Qed.
Lemma one_angle k v (al be rho : R) : 0 <= rho -> rho * rho = al * al + be * be ->
  let a := fun j => xr j v in let b := fun j => yr j v in
  - (rho * (INR N * ip v v)) <= rsumn N (fun j => rsumn N (fun l => (al * cos (k * (INR j - INR l)) + be * sin (k * (INR j - INR l))) * ip (a j) (b l))).
Proof.
  intros Hr Hab a b.
  assert (E : rsumn N (fun j => rsumn N (fun l => (al * cos (k * (INR j - INR l)) + be * sin (k * (INR j - INR l))) * ip (a j) (b l))) =
    al * (ip (cc k a) (cc k b) + ip (ss k a) (ss k b)) + be * (ip (ss k a) (cc k b) + - 1 * ip (cc k a) (ss k b))).
  { unfold cc, ss. rewrite !ip_sum, <- !rsumn_mul_l, <- !rsumn_add, <- !rsumn_mul_l, <- rsumn_add. apply rsumn_ext. intros j _.
    rewrite <- !rsumn_mul_l, <- !rsumn_add, <- !rsumn_mul_l, <- rsumn_add. apply rsumn_ext. intros l _.
    replace (k * (INR j - INR l)) with (k * INR j - k * INR l) by ring. rewrite cos_minus, sin_minus. ring. }
  rewrite E. pose proof (norm_cs k a (ip v v) ltac:(intros; apply xr_ip; assumption)) as NA. pose proof (norm_cs k b (ip v v) ltac:(intros; apply yr_ip; assumption)) as NB.
  set (Ac := cc k a) in *. set (As := ss k a) in *. set (Bc := cc k b) in *. set (Bs := ss k b) in *.
  assert (P : 0 <= csum (fun is => rho * (Ac is * Ac is) + rho * (As is * As is) + rho * (Bc is * Bc is) + rho * (Bs is * Bs is) + (2 * al) * (Ac is * Bc is) + (2 * al) * (As is * Bs is) + (2 * be) * (As is * Bc is) + (- (2 * be)) * (Ac is * Bs is))).
  { apply csum_nonneg. intros is _. set (p := Ac is). set (q := As is). set (r := Bc is). set (t := Bs is).
    destruct (Req_dec rho 0) as [Z|Z].
    - assert (al = 0 /\ be = 0) as [-> ->] by (apply Rplus_sqr_eq_0; unfold Rsqr; rewrite <- Hab, Z; ring). rewrite Z. lra.
    - assert (0 < rho) by lra. apply (Rmult_le_reg_l rho); [assumption|]. rewrite Rmult_0_r.
      replace (rho * (rho * (p * p) + rho * (q * q) + rho * (r * r) + rho * (t * t) + 2 * al * (p * r) + 2 * al * (q * t) + 2 * be * (q * r) + - (2 * be) * (p * t)))
        with ((rho * rho) * (r * r + t * t) + (rho * rho) * (p * p + q * q) + 2 * rho * r * (al * p + be * q) + 2 * rho * t * (al * q - be * p)) by ring.
      rewrite Hab at 2. replace ((al * al + be * be) * (p * p + q * q)) with ((al * p + be * q) * (al * p + be * q) + (al * q - be * p) * (al * q - be * p)) by ring.
      pose proof (Rle_0_sqr (rho * r + (al * p + be * q))) as Q1. pose proof (Rle_0_sqr (rho * t + (al * q - be * p))) as Q2. unfold Rsqr in *. lra. }
  rewrite !csum_add, !csum_mul in P. unfold ip in *. nra.
Qed.

(** ** The sum over the angles *)
Definition sgnr (i : nat) : R := if Nat.eqb i 0 then 1 else - 1.
Lemma coup_sgn gamma i j : (i < 2)%nat -> (j < 2)%nat -> coup gamma i j = (1 + gamma) / 4 - (1 - gamma) / 4 * (sgnr i * sgnr j).
Proof. intros Hi Hj. destruct i as [|[|]]; try lia; destruct j as [|[|]]; try lia; unfold coup, sgnr; cbn; field. Qed.
Definition qf gamma (v : vec) : R := csum (fun is => v is * rsumn N (fun s => coup gamma (nth s is 0%nat) (nth (nxt N s) is 0%nat) * v (fl s (fl (nxt N s) is)))).
Section Sector.
Hypothesis HN : (2 <= N)%nat.
Variables (t0 e : R).
Hypothesis He : e * e = 1.
Hypothesis Ht : cos (t0 * INR N) = - e.
Definition ang l := t0 + 2 * PI * INR l / INR N.
Definition tau (b : nat) : R := if Nat.eqb (S b) N then - e else 1.
Lemma tau_sq b : tau b * tau b = 1.
Proof. unfold tau. destruct (Nat.eqb (S b) N); [|ring]. rewrite <- He. ring. Qed.
Lemma INR_pos : 0 < INR N.
Proof. apply lt_0_INR. lia. Qed.
Lemma kern j b : (j < N)%nat -> (b < N)%nat -> rsumn N (fun l => cos (ang l * (INR j - INR (S b)))) = INR N * (if Nat.eqb j (nxt N b) then tau b else 0).
Proof.
  intros Hj Hb. pose proof INR_pos as PN. set (r := (Z.of_nat j - Z.of_nat (S b))%Z). assert (Er : INR j - INR (S b) = IZR r) by (unfold r; rewrite minus_IZR, <- !INR_IZR_INZ; reflexivity).
  set (t := 2 * PI * IZR r / INR N).
  rewrite (rsumn_ext N _ (fun l => cos (t0 * IZR r + INR l * t))) by (intros l _; f_equal; rewrite Er; unfold ang, t; field; lra).
  assert (NT : INR N * t = 2 * PI * IZR r) by (unfold t; field; lra). assert (T2 : t / 2 = PI * IZR r / INR N) by (unfold t; field; lra).
  unfold nxt, tau. destruct (Z.eq_dec r 0) as [R0|R0].
  - assert (j = S b) by lia. subst j. rewrite Nat.mod_small by exact Hj. rewrite Nat.eqb_refl. destruct (Nat.eqb_spec (S b) N); [lia|].
    rewrite cos_sum_1 by (rewrite T2, R0; replace (PI * 0 / INR N) with 0 by (field; lra); apply sin_0). rewrite R0, Rmult_0_r, cos_0. reflexivity.
  - destruct (Z.eq_dec r (- Z.of_nat N)) as [R1|R1].
    + assert (S b = N /\ j = 0)%nat as [E1 ->] by lia. rewrite E1, Nat.mod_same, !Nat.eqb_refl by lia. assert (RN : IZR r = - INR N) by (rewrite R1, opp_IZR, <- INR_IZR_INZ; reflexivity).
      rewrite cos_sum_1. 2:{ rewrite T2, RN. replace (PI * - INR N / INR N) with (- PI) by (field; lra). rewrite sin_neg, sin_PI. ring. }
      rewrite RN. replace (t0 * - INR N) with (- (t0 * INR N)) by ring. rewrite cos_neg, Ht. reflexivity.
    + replace (Nat.eqb j (Nat.modulo (S b) N)) with false. 2:{ symmetry. apply Nat.eqb_neq. intros Ej. destruct (Nat.eq_dec (S b) N) as [E1|E1]; [rewrite E1, Nat.mod_same in Ej by lia; lia|rewrite Nat.mod_small in Ej by lia; lia]. }
      rewrite Rmult_0_r. apply (cos_sum_0 _ _ _ _ NT). rewrite T2. intros S0.
      assert (Bd : forall z, (0 < z < Z.of_nat N)%Z -> sin (PI * IZR z / INR N) <> 0).
      { intros z [z0 z1]. apply IZR_lt in z0, z1. rewrite <- INR_IZR_INZ in z1. apply Rgt_not_eq. pose proof PI_RGT_0. apply sin_gt_0.
        - apply Rdiv_lt_0_compat; [apply Rmult_lt_0_compat; lra|lra].
        - apply (Rmult_lt_reg_r (INR N)); [lra|]. replace (PI * IZR z / INR N * INR N) with (PI * IZR z) by (field; lra). apply Rmult_lt_compat_l; lra. }
      destruct (Z_lt_le_dec r 0) as [L|L].
      * apply (Bd (- r)%Z); [lia|]. rewrite opp_IZR. replace (PI * - IZR r / INR N) with (- (PI * IZR r / INR N)) by (field; lra). rewrite sin_neg, S0. ring.
      * apply (Bd r); [lia|exact S0].
Qed.
Lemma qf_sector gamma v : @parity RS N e v ->
  qf gamma v = rsumn N (fun s => tau s * ((1 + gamma) / 4 * ip (xr (nxt N s) v) (yr s v) + (1 - gamma) / 4 * ip (xr s v) (yr (nxt N s) v))).
Proof.
  intros P. unfold qf. 
  transitivity (csum (fun is => rsumn N (fun s => tau s * ((1 + gamma) / 4) * (v is * xr (nxt N s) (yr s v) is) + tau s * ((1 - gamma) / 4) * (v is * xr s (yr (nxt N s) v) is)))).
  - apply csum_ext. intros is Hi. rewrite <- rsumn_mul_l. apply rsumn_ext. intros s Hs. assert (Hc := Hi). apply conf_iff in Hc. destruct Hc as [L H].
    rewrite coup_sgn by (apply H; first [exact Hs|apply nxt_lt; lia]).
    pose proof (@xy_xx RS N e v is s HN Hi P Hs) as A. pose proof (@xy_yy RS N e v is s HN Hi P Hs) as B. pose proof (tau_sq s) as T. unfold tau in T |- *.
    change (@xop RS (nxt N s) (@yop RS s v) is) with (xr (nxt N s) (yr s v) is) in A. change (@xop RS s (@yop RS (nxt N s) v) is) with (xr s (yr (nxt N s) v) is) in B. rewrite A, B.
    change (@sgn RS) with sgnr. set (u := v (fl s (fl (nxt N s) is))). set (si := sgnr (nth s is 0%nat)). set (sj := sgnr (nth (nxt N s) is 0%nat)).
    destruct (Nat.eqb (S s) N).
    + change (@kmul RS (@kopp RS e) u) with (- e * u)%R. change (@kmul RS (@kopp RS (@kmul RS si sj)) (- e * u)%R) with (- (si * sj) * (- e * u))%R.
      transitivity ((- e * - e) * ((1 + gamma) / 4 * (v is * u) + (1 - gamma) / 4 * (v is * (- (si * sj) * u)))); [rewrite T; ring|ring].
    + change (@kmul RS (@kopp RS (@kmul RS si sj)) u) with (- (si * sj) * u)%R. ring.
  - rewrite csum_swap. apply rsumn_ext. intros s Hs. rewrite csum_add, !csum_mul.
    change (csum (fun is => v is * xr (nxt N s) (yr s v) is)) with (ip v (xr (nxt N s) (yr s v))). change (csum (fun is => v is * xr s (yr (nxt N s) v) is)) with (ip v (xr s (yr (nxt N s) v))).
    rewrite !xr_adj by (exact Hs || (apply nxt_lt; lia)). ring.
Qed.
Lemma angles_qf gamma v : @parity RS N e v ->
  rsumn N (fun l => rsumn N (fun j => rsumn N (fun b => (cos (ang l) / 2 * cos (ang l * (INR j - INR b)) + gamma * sin (ang l) / 2 * sin (ang l * (INR j - INR b))) * ip (xr j v) (yr b v)))) = INR N * qf gamma v.
Proof.
  intros P. rewrite (qf_sector gamma v P). rewrite rsumn_swap.
  transitivity (rsumn N (fun j => rsumn N (fun b => ((1 + gamma) / 4 * (INR N * (if Nat.eqb j (nxt N b) then tau b else 0)) + (1 - gamma) / 4 * (INR N * (if Nat.eqb b (nxt N j) then tau j else 0))) * ip (xr j v) (yr b v)))).
  - apply rsumn_ext. intros j Hj. rewrite rsumn_swap. apply rsumn_ext. intros b Hb. rewrite <- (kern j b Hj Hb), <- (kern b j Hb Hj). rewrite (Rmult_comm (_ + _)). rewrite <- !rsumn_mul_l, <- rsumn_add, <- rsumn_mul_l. apply rsumn_ext. intros l _.
    rewrite !S_INR. replace (ang l * (INR j - (INR b + 1))) with (ang l * (INR j - INR b) - ang l) by ring.
    replace (cos (ang l * (INR b - (INR j + 1)))) with (cos (ang l * (INR j - INR b) + ang l)) by (rewrite <- cos_neg; f_equal; ring). rewrite cos_minus, cos_plus. field.
  - transitivity (rsumn N (fun b => rsumn N (fun j => (1 + gamma) / 4 * INR N * ((if Nat.eqb j (nxt N b) then tau b else 0) * ip (xr j v) (yr b v)))) + rsumn N (fun j => rsumn N (fun b => (1 - gamma) / 4 * INR N * ((if Nat.eqb b (nxt N j) then tau j else 0) * ip (xr j v) (yr b v))))).
    + rewrite (rsumn_swap N N (fun b j => (1 + gamma) / 4 * INR N * ((if Nat.eqb j (nxt N b) then tau b else 0) * ip (xr j v) (yr b v)))), <- rsumn_add. apply rsumn_ext. intros j _. rewrite <- rsumn_add. apply rsumn_ext. intros b _. ring.
    + rewrite <- rsumn_mul_l, <- rsumn_add. apply rsumn_ext. intros s Hs. assert (Hn : (nxt N s < N)%nat) by (apply nxt_lt; lia).
      rewrite (rsumn_single N (nxt N s)); [|exact Hn|intros k _ Ne; apply Nat.eqb_neq in Ne; rewrite Ne; ring]. rewrite Nat.eqb_refl.
      rewrite (rsumn_single N (nxt N s)); [|exact Hn|intros k _ Ne; apply Nat.eqb_neq in Ne; rewrite Ne; ring]. rewrite Nat.eqb_refl. ring.
Qed.
Theorem sector_low gamma v : @parity RS N e v -> - (1 / 2) * rsumn N (fun l => excitation gamma (ang l)) * ip v v <= qf gamma v.
Proof.
  intros P. pose proof INR_pos as PN. apply (Rmult_le_reg_l (INR N)); [exact PN|]. rewrite <- (angles_qf gamma v P).
  apply (Rle_trans _ (rsumn N (fun l => - (excitation gamma (ang l) / 2 * (INR N * ip v v))))).
  - right. transitivity (rsumn N (fun l => (- (1 / 2) * (INR N * ip v v)) * excitation gamma (ang l))); [rewrite rsumn_mul_l; ring|apply rsumn_ext; intros; field].
  - apply rsumn_le. intros l _. apply (one_angle (ang l) v (cos (ang l) / 2) (gamma * sin (ang l) / 2) (excitation gamma (ang l) / 2)).
    + unfold excitation. pose proof (sqrt_pos (cos (ang l) ^ 2 + gamma ^ 2 * sin (ang l) ^ 2)). lra.
    + unfold excitation. pose proof (sqrt_sqrt (cos (ang l) ^ 2 + gamma ^ 2 * sin (ang l) ^ 2)) as Q. rewrite <- lambda2_alt in Q at 1. specialize (Q (lambda2_nonneg gamma (ang l))). set (x := sqrt _) in *. transitivity (x * x / 4); [field|]. rewrite Q. field.
Qed.
End Sector.

(** ** All vectors: the two sectors *)
Definition part (e : R) (v : vec) : vec := fun is => (1 + e * sgr N is) / 2 * v is.
Lemma part_parity e v : e * e = 1 -> @parity RS N e (part e v).
Proof.
  intros He is Hi. unfold part. change (sgr N is * ((1 + e * sgr N is) / 2 * v is) = e * ((1 + e * sgr N is) / 2 * v is)).
  transitivity ((sgr N is + e * (sgr N is * sgr N is)) / 2 * v is); [field|]. rewrite sgr_sq. transitivity ((e + (e * e) * sgr N is) / 2 * v is); [rewrite He; field|field].
Qed.
Lemma part_split v is js : sgr N js = sgr N is -> v is * v js = part 1 v is * part 1 v js + part (- 1) v is * part (- 1) v js.
Proof. intros E. unfold part. rewrite E. transitivity ((1 + sgr N is * sgr N is) / 2 * (v is * v js)); [rewrite sgr_sq; field|field]. Qed.
Lemma ip_split v : ip v v = ip (part 1 v) (part 1 v) + ip (part (- 1) v) (part (- 1) v).
Proof. unfold ip. rewrite <- csum_add. apply csum_ext. intros is _. apply part_split. reflexivity. Qed.
Lemma qf_split gamma v : (0 < N)%nat -> qf gamma v = qf gamma (part 1 v) + qf gamma (part (- 1) v).
Proof.
  intros HN. unfold qf. rewrite <- csum_add. apply csum_ext. intros is Hi. rewrite <- !rsumn_mul_l, <- rsumn_add. apply rsumn_ext. intros s Hs.
  set (js := fl s (fl (nxt N s) is)). assert (E : sgr N js = sgr N is).
  { unfold js. rewrite !sgr_fl by (try apply fl_inr; assumption || lia). pose proof (nxt_lt N s HN). destruct (Nat.ltb_spec s N), (Nat.ltb_spec (nxt N s) N); try lia; apply Ropp_involutive. }
  set (c := coup _ _ _). transitivity (c * (v is * v js)); [ring|]. rewrite (part_split v is js E). ring.
Qed.
Definition per gamma := rsumn N (fun l => excitation gamma (2 * PI * INR l / INR N)).
Definition anti gamma := rsumn N (fun l => excitation gamma (PI / INR N + 2 * PI * INR l / INR N)).
Theorem qf_low gamma v x : (2 <= N)%nat -> per gamma <= x -> anti gamma <= x -> - (1 / 2) * x * ip v v <= qf gamma v.
Proof.
  intros HN Xp Xa. rewrite (qf_split gamma v ltac:(lia)), (ip_split v).
  pose proof (sector_low HN 0 (- 1) ltac:(ring) ltac:(rewrite Rmult_0_l, cos_0; ring) gamma _ (part_parity (- 1) v ltac:(ring))) as P.
  pose proof (sector_low HN (PI / INR N) 1 ltac:(ring) ltac:(replace (PI / INR N * INR N) with PI by (field; apply not_0_INR; lia); apply cos_PI) gamma _ (part_parity 1 v ltac:(ring))) as A.
  unfold ang in *. rewrite (rsumn_ext N (fun l => excitation gamma (0 + 2 * PI * INR l / INR N)) (fun l => excitation gamma (2 * PI * INR l / INR N))) in P by (intros; f_equal; ring).
  fold (per gamma) in P. fold (anti gamma) in A. 
  assert (Z : 0 <= ip (part 1 v) (part 1 v)) by (apply csum_nonneg; intros is _; nra). assert (Z' : 0 <= ip (part (- 1) v) (part (- 1) v)) by (apply csum_nonneg; intros is _; nra). nra.
Qed.

(** ** Complex vectors *)
Lemma Cre_bigsum n (f : nat -> CS) : Cre (bigsum n f) = rsumn n (fun k => Cre (f k)).
Proof. induction n as [|n IH]; [reflexivity|]. cbn [bigsum rsumn]. rewrite Cre_add, IH. reflexivity. Qed.
Lemma Cim_bigsum n (f : nat -> CS) : Cim (bigsum n f) = rsumn n (fun k => Cim (f k)).
Proof. induction n as [|n IH]; [reflexivity|]. cbn [bigsum rsumn]. rewrite <- IH. destruct (bigsum n f), (f n). reflexivity. Qed.
Lemma Cre_msum f : Cre (msum (conf N) f) = csum (fun is => Cre (f is)).
Proof. rewrite msum_flat, Cre_bigsum. reflexivity. Qed.
Lemma hform_real gamma v : (2 <= N)%nat -> Cre (hform (xyH gamma N) N v) = qf gamma (fun is => Cre (v is)) + qf gamma (fun is => Cim (v is)).
Proof.
  intros HN. unfold hform. rewrite Cre_msum. unfold qf. rewrite <- csum_add. apply csum_ext. intros is Hi. rewrite happly_xy by exact Hi. set (h := bigsum N _).
  transitivity (Cre (v is) * Cre h + Cim (v is) * Cim h); [destruct (v is), h; unfold Cre, Cim; cbn; ring|]. unfold h. rewrite Cre_bigsum, Cim_bigsum.
  f_equal; f_equal; apply rsumn_ext; intros s Hs; fold (nxt N s); rewrite flip_fl by (unfold nxt; intros E; destruct (Nat.eq_dec (S s) N) as [E1|E1]; [rewrite E1, Nat.mod_same in E by lia; lia|rewrite Nat.mod_small in E by lia; lia]);
    destruct (v (fl s (fl (nxt N s) is))); unfold Cre, Cim; cbn; ring.
Qed.
Theorem xyH_low gamma v x : (2 <= N)%nat -> per gamma <= x -> anti gamma <= x -> - (1 / 2) * x * Cre (vnorm2 N v) <= Cre (hform (xyH gamma N) N v).
Proof.
  intros HN Xp Xa. rewrite hform_real by lia. pose proof (qf_low gamma (fun is => Cre (v is)) x HN Xp Xa) as A. pose proof (qf_low gamma (fun is => Cim (v is)) x HN Xp Xa) as B.
  assert (E : Cre (vnorm2 N v) = ip (fun is => Cre (v is)) (fun is => Cre (v is)) + ip (fun is => Cim (v is)) (fun is => Cim (v is))).
  { unfold vnorm2, ip. rewrite Cre_msum, <- csum_add. apply csum_ext. intros is _. destruct (v is). unfold Cre, Cim. cbn. ring. }
  rewrite E. lra.
Qed.
End Low.
