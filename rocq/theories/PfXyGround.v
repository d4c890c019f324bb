(** Eigenvectors of the cyclic XY model, constructed from anticommuting operators: one for the angles
    [2 pi l / N] and one for the angles between them. *)
From Coq Require Import Reals Lra Lia.
From Verif Require Import Cplx CanonSpec PfPhysics PfReindex PfSymm PfCxyE0 PfXyFock PfXyTrig PfXyLow.
Open Scope nat_scope.

Section Modes.
Add Ring Cr : (k_ring CS).
Variables (N : nat) (gamma t0 e : R) (pr : nat -> nat).
Hypothesis HN : 2 <= N.
Hypothesis He : (e * e = 1)%R.
Hypothesis Ht : (cos (t0 * INR N) = - e)%R.
Notation vec := (list nat -> CS).
Notation an := (ang N t0).
Definition ef (a j : nat) : CS := (cos (an a * INR j), sin (an a * INR j))%R.
(** [pr] maps an angle to its negative. *)
Hypothesis pr_lt : forall a, a < N -> pr a < N.
Hypothesis pr_pr : forall a, a < N -> pr (pr a) = a.
Hypothesis pr_ef : forall a j, a < N -> ef (pr a) j = kconj (ef a j).

Lemma NR_pos : (0 < INR N)%R.
Proof. apply lt_0_INR. lia. Qed.
Lemma ef_unit a j : (ef a j * kconj (ef a j))%K = k1.
Proof. unfold ef. set (t := (_ * _)%R). pose proof (sc2 t) as Q. apply cplx_eq; cbn; nra. Qed.
Lemma ef_S a j : ef a (S j) = (ef a j * ef a 1)%K.
Proof. unfold ef. rewrite S_INR. cbn [INR]. replace (an a * (INR j + 1))%R with (an a * INR j + an a * 1)%R by ring. rewrite cos_plus, sin_plus. apply cplx_eq; cbn; ring. Qed.
Lemma ef_orth a b : a < N -> b < N -> bigsum N (fun j => kconj (ef a j) * ef b j)%K = if Nat.eqb a b then toC (INR N) else k0.
Proof.
  intros Ha Hb. pose proof NR_pos as PN. set (r := (Z.of_nat b - Z.of_nat a)%Z). set (t := (2 * PI * IZR r / INR N)%R).
  assert (Er : (IZR r = INR b - INR a)%R) by (unfold r; rewrite minus_IZR, <- !INR_IZR_INZ; reflexivity).
  assert (Ed : forall j, (an b * INR j - an a * INR j = INR j * t)%R) by (intros j; unfold ang, t; rewrite Er; field; lra).
  assert (Ec : Cre (bigsum N (fun j => kconj (ef a j) * ef b j)%K) = rsumn N (fun j => cos (0 + INR j * t))%R).
  { rewrite Cre_bigsum. apply rsumn_ext. intros j _. rewrite Rplus_0_l, <- Ed, cos_minus. unfold ef, Cre. cbn. ring. }
  assert (Es : Cim (bigsum N (fun j => kconj (ef a j) * ef b j)%K) = rsumn N (fun j => cos (- (PI / 2) + INR j * t))%R).
  { rewrite Cim_bigsum. apply rsumn_ext. intros j _. replace (- (PI / 2) + INR j * t)%R with (- (PI / 2 - INR j * t))%R by ring. rewrite cos_neg, cos_shift, <- Ed, sin_minus. unfold ef, Cim. cbn. ring. }
  destruct (Nat.eqb_spec a b) as [<-|Ne].
  - assert (S0 : sin (t / 2) = 0%R) by (unfold t; rewrite Er; replace (2 * PI * (INR a - INR a) / INR N / 2)%R with 0%R by (field; lra); apply sin_0).
    rewrite cos_sum_1 in Ec, Es by exact S0. apply cplx_eq; [rewrite Ec, cos_0; cbn; ring|rewrite Es, cos_neg, cos_PI2; cbn; ring].
  - assert (Bd : forall z, (0 < z < Z.of_nat N)%Z -> sin (PI * IZR z / INR N) <> 0%R).
    { intros z [z0 z1]. apply IZR_lt in z0, z1. rewrite <- INR_IZR_INZ in z1. apply Rgt_not_eq. pose proof PI_RGT_0. apply sin_gt_0.
      - apply Rdiv_lt_0_compat; [apply Rmult_lt_0_compat; lra|lra].
      - apply (Rmult_lt_reg_r (INR N)); [lra|]. replace (PI * IZR z / INR N * INR N)%R with (PI * IZR z)%R by (field; lra). apply Rmult_lt_compat_l; lra. }
    assert (S0 : sin (t / 2) <> 0%R).
    { replace (t / 2)%R with (PI * IZR r / INR N)%R by (unfold t; field; lra). destruct (Z_lt_le_dec r 0) as [L|L].
      - intros Z. apply (Bd (- r)%Z); [lia|]. rewrite opp_IZR. replace (PI * - IZR r / INR N)%R with (- (PI * IZR r / INR N))%R by (field; lra). rewrite sin_neg, Z. ring.
      - apply Bd. lia. }
    assert (NT : (INR N * t = 2 * PI * IZR r)%R) by (unfold t; field; lra).
    rewrite (cos_sum_0 _ _ _ _ NT S0) in Ec. rewrite (cos_sum_0 _ _ _ _ NT S0) in Es. apply cplx_eq; assumption.
Qed.
Lemma pr_sum (f : nat -> CS) : bigsum N (fun l => f (pr l)) = bigsum N f.
Proof.
  pose proof (msum_reindex (K:=CS) [N] [N] (fun l => match l with [a] => [pr a] | _ => l end) (fun l => match l with [a] => [pr a] | _ => l end) (fun l => match l with [a] => f a | _ => k0 end)) as Q. cbn [msum] in Q. symmetry. apply Q; clear Q.
  - intros i Hi. inversion Hi as [|a ? r ? Ha Hr]; subst. inversion Hr; subst. split; [constructor; [apply pr_lt; exact Ha|constructor]|]. rewrite pr_pr by exact Ha. reflexivity.
  - intros i Hi. inversion Hi as [|a ? r ? Ha Hr]; subst. inversion Hr; subst. split; [constructor; [apply pr_lt; exact Ha|constructor]|]. rewrite pr_pr by exact Ha. reflexivity.
Qed.

(** ** The phases *)
Definition lam l : R := excitation gamma (an l).
Definition om l : CS := if Req_EM_T (lam l) 0 then k1 else (cos (an l) / lam l, - gamma * sin (an l) / lam l)%R.
Lemma lam_sq l : (lam l * lam l = cos (an l) ^ 2 + gamma ^ 2 * sin (an l) ^ 2)%R.
Proof. unfold lam, excitation. apply sqrt_sqrt. rewrite <- lambda2_alt. apply lambda2_nonneg. Qed.
Lemma om_unit l : (om l * kconj (om l))%K = k1.
Proof.
  unfold om. destruct (Req_EM_T (lam l) 0) as [Z|Z]; [apply cplx_eq; cbn; ring|]. pose proof (lam_sq l) as Q. set (c := cos (an l)) in *. set (s := sin (an l)) in *. set (L := lam l) in *.
  apply cplx_eq; cbn; [|field; exact Z]. transitivity ((c ^ 2 + gamma ^ 2 * s ^ 2) / (L * L))%R; [field; exact Z|]. rewrite <- Q. field. exact Z.
Qed.
Lemma an_pr l : l < N -> (cos (an (pr l)) = cos (an l) /\ sin (an (pr l)) = - sin (an l))%R.
Proof.
  intros H. pose proof (pr_ef l 1 H) as E. pose proof (f_equal Cre E) as E1. pose proof (f_equal Cim E) as E2. cbn in E1, E2. rewrite !Rmult_1_r in E1, E2. auto.
Qed.
Lemma lam_pr l : l < N -> lam (pr l) = lam l.
Proof. intros H. unfold lam, excitation. destruct (an_pr l H) as [-> ->]. f_equal. ring. Qed.
Lemma om_pr l : l < N -> om (pr l) = kconj (om l).
Proof.
  intros H. unfold om. rewrite (lam_pr l H). destruct (an_pr l H) as [-> ->]. destruct (Req_EM_T (lam l) 0) as [Z|Z]; apply cplx_eq; cbn; try ring; field; exact Z.
Qed.
(** [mu = lam / 2 * om] *)
Definition mu l : CS := (toC ((1 + gamma) / 4) * kconj (ef l 1) + toC ((1 - gamma) / 4) * ef l 1)%K.
Lemma mu_om l : (mu l * kconj (om l))%K = toC (lam l / 2).
Proof.
  transitivity ((toC (lam l / 2) * om l) * kconj (om l))%K; [|transitivity (toC (lam l / 2) * (om l * kconj (om l)))%K; [ring|rewrite om_unit; ring]]. f_equal.
  pose proof (lam_sq l) as Q. unfold mu, om, ef. cbn [INR]. rewrite Rmult_1_r. set (c := cos (an l)) in *. set (s := sin (an l)) in *. destruct (Req_EM_T (lam l) 0) as [Z|Z].
  - rewrite Z in Q |- *. assert (c = 0 /\ gamma * s = 0)%R as [C S].
    { apply Rplus_sqr_eq_0. unfold Rsqr. lra. }
    apply cplx_eq; cbn; [rewrite C; field|]. transitivity (- (gamma * s) / 2)%R; [field|]. rewrite S. field.
  - apply cplx_eq; cbn; field; exact Z.
Qed.

(** ** The operators *)
Definition cf a j : CS := kconj (ef a j).
Definition cop a : vec -> vec := lop N (cf a) (cf a).
Definition eta a : vec -> vec := lop N (cf a) (fun j => om a * cf a j)%K.
Definition zero (u : vec) : Prop := forall is, inr is (conf N) -> u is = k0.
Lemma cf_sum a b : a < N -> b < N -> bigsum N (fun j => cf a j * cf b j)%K = if Nat.eqb a (pr b) then toC (INR N) else k0.
Proof.
  intros Ha Hb. rewrite <- (ef_orth a (pr b) Ha (pr_lt b Hb)). apply bigsum_ext. intros j _. unfold cf. rewrite pr_ef by exact Hb. reflexivity.
Qed.
Lemma eta_anti a b u is : a < N -> b < N -> inr is (conf N) -> eta a (eta b u) is = (- eta b (eta a u) is)%K.
Proof.
  intros Ha Hb Hi. pose proof (lop_anti N (cf a) (fun j => om a * cf a j)%K (cf b) (fun j => om b * cf b j)%K u is Hi) as Q. fold (eta a) in Q. fold (eta b) in Q.
  rewrite (bigsum_ext _ _ (fun j => ((k1 - om a * om b) + (k1 - om a * om b)) * (cf a j * cf b j))%K) in Q by (intros; ring). rewrite bigsum_mul_l, cf_sum in Q by assumption.
  transitivity ((eta a (eta b u) is + eta b (eta a u) is) - eta b (eta a u) is)%K; [ring|]. rewrite Q.
  destruct (Nat.eqb_spec a (pr b)) as [E|E]; [|ring]. replace (om a * om b)%K with (k1 : CS); [ring|]. rewrite E, om_pr by exact Hb. rewrite <- (om_unit b). ring.
Qed.
Lemma cop_eta a b u is : a < N -> b < N -> inr is (conf N) ->
  cop a (eta b u) is = (((k1 - om b) + (k1 - om b)) * (if Nat.eqb a (pr b) then toC (INR N) else k0) * u is - eta b (cop a u) is)%K.
Proof.
  intros Ha Hb Hi. pose proof (lop_anti N (cf a) (cf a) (cf b) (fun j => om b * cf b j)%K u is Hi) as Q. fold (cop a) in Q. fold (eta b) in Q.
  rewrite (bigsum_ext _ _ (fun j => ((k1 - om b) + (k1 - om b)) * (cf a j * cf b j))%K) in Q by (intros; ring). rewrite bigsum_mul_l, cf_sum in Q by assumption. rewrite <- Q. ring.
Qed.
Lemma cop_om1 a u is : om a = k1 -> eta a u is = cop a u is.
Proof. intros E. unfold eta, cop. rewrite !lop_term. apply bigsum_ext. intros j _. rewrite E. ring. Qed.
Lemma zero_eta a u : zero u -> zero (eta a u).
Proof. intros Z is Hi. apply (lop_zero N); assumption. Qed.
Lemma zero_cop a u : zero u -> zero (cop a u).
Proof. intros Z is Hi. apply (lop_zero N); assumption. Qed.
Lemma double0 (x : CS) : x = (- x)%K -> x = k0.
Proof. destruct x as [a b]. intros E. pose proof (f_equal Cre E) as A. pose proof (f_equal Cim E) as B. cbn in A, B. apply cplx_eq; cbn; lra. Qed.
Lemma eta_sq a u : a < N -> zero (eta a (eta a u)).
Proof. intros Ha is Hi. apply double0. apply eta_anti; assumption. Qed.
Lemma eta_zero_past a b u : a < N -> b < N -> zero (eta a u) -> zero (eta a (eta b u)).
Proof. intros Ha Hb Z is Hi. rewrite eta_anti by assumption. rewrite (zero_eta b _ Z is Hi). ring. Qed.
Lemma cop_zero_past a b u : a < N -> b < N -> a <> pr b -> zero (cop a u) -> zero (cop a (eta b u)).
Proof. intros Ha Hb Ne Z is Hi. rewrite cop_eta by assumption. apply Nat.eqb_neq in Ne. rewrite Ne, (zero_eta b _ Z is Hi). ring. Qed.
(** An operator with phase other than one does not annihilate a vector annihilated by its partner. *)
Lemma eta_nonzero b u : b < N -> om b <> k1 -> zero (cop (pr b) u) -> ~ zero u -> ~ zero (eta b u).
Proof.
  intros Hb O Z NZ H. apply NZ. intros is Hi. pose proof (cop_eta (pr b) b u is (pr_lt b Hb) Hb Hi) as Q. rewrite (zero_cop (pr b) _ H is Hi), (zero_eta b _ Z is Hi), Nat.eqb_refl in Q.
  assert (NZ' : INR N <> 0%R) by (pose proof NR_pos; lra). destruct (om b) as [p q] eqn:Eo. destruct (u is) as [x y] eqn:Eu.
  pose proof (f_equal Cre Q) as A. pose proof (f_equal Cim Q) as B. unfold Cre, Cim in A, B. cbn in A, B.
  assert (A' : ((1 - p) * x + q * y = 0)%R) by (apply (Rmult_eq_reg_l (2 * INR N)); [|lra]; lra). assert (B' : ((1 - p) * y - q * x = 0)%R) by (apply (Rmult_eq_reg_l (2 * INR N)); [|lra]; lra).
  assert (D : (0 < (1 - p) * (1 - p) + q * q)%R).
  { destruct (Req_dec (1 - p) 0) as [Ep|Ep]; [|nra]. destruct (Req_dec q 0) as [Eq|Eq]; [|nra]. exfalso. apply O. replace p with 1%R by lra. rewrite Eq. reflexivity. }
  assert (X : (((1 - p) * (1 - p) + q * q) * x = 0)%R) by (transitivity ((1 - p) * ((1 - p) * x + q * y) - q * ((1 - p) * y - q * x))%R; [ring|rewrite A', B'; ring]).
  assert (Y : (((1 - p) * (1 - p) + q * q) * y = 0)%R) by (transitivity ((1 - p) * ((1 - p) * y - q * x) + q * ((1 - p) * x + q * y))%R; [ring|rewrite A', B'; ring]).
  apply Rmult_integral in X, Y. apply cplx_eq; cbn; lra.
Qed.

(** ** The vector annihilated by all [cop] *)
Definition vac : vec := fun is => if forallb (fun i => Nat.eqb i 0) is then k1 else k0.
Lemma vac_at is k : k < length is -> nth k is 0 <> 0 -> vac is = k0.
Proof.
  intros Hk Ne. unfold vac. destruct (forallb _ is) eqn:F; [|reflexivity]. exfalso. rewrite forallb_forall in F. apply Ne. apply Nat.eqb_eq. apply F. apply nth_In. exact Hk.
Qed.
Lemma vac_cop a : zero (cop a vac).
Proof.
  intros is Hi. unfold cop. rewrite lop_term. apply bigsum_zero. intros j Hj. assert (Hc := Hi). apply conf_iff in Hc. destruct Hc as [L H]. specialize (H j Hj).
  destruct (nth j is 0) as [|[|]] eqn:E; try lia.
  - rewrite (vac_at (fl j is) j) by (rewrite ?fl_len, ?nth_fl by lia; rewrite ?Nat.eqb_refl; lia). ring.
  - unfold sgn. cbn [Nat.eqb]. ring.
Qed.
Lemma sg_zeros is : forallb (fun i => Nat.eqb i 0) is = true -> forall j, sg j is = k1 :> CS.
Proof.
  intros F. induction j as [|j IH]; [reflexivity|]. cbn [sg]. rewrite IH. replace (nth j is 0) with 0; [unfold sgn; cbn [Nat.eqb]; ring|]. symmetry. destruct (Nat.lt_ge_cases j (length is)) as [L|L]; [|apply nth_overflow; exact L].
  rewrite forallb_forall in F. apply Nat.eqb_eq, F, nth_In. exact L.
Qed.
Lemma vac_parity : parity N k1 vac.
Proof. intros is Hi. unfold vac. destruct (forallb _ is) eqn:F; [|ring]. rewrite (sg_zeros is F). reflexivity. Qed.
Lemma vac_nonzero : ~ zero vac.
Proof.
  intros Z. assert (Hi : inr (repeat 0 N) (conf N)) by (apply conf_iff; split; [apply repeat_length|intros k Hk; rewrite nth_rep by exact Hk; lia]). specialize (Z _ Hi). unfold vac in Z.
  replace (forallb (fun i => Nat.eqb i 0) (repeat 0 N)) with true in Z by (symmetry; clear; induction N; [reflexivity|assumption]). apply (f_equal Cre) in Z. cbn in Z. lra.
Qed.

(** ** A vector annihilated by all [eta], from one annihilated by the unpaired [eta] and all paired [cop] *)
Definition om1_dec a : {om a = k1} + {om a <> k1}.
Proof. destruct (om a) as [p q]. destruct (Req_EM_T p 1) as [->|H]; [destruct (Req_EM_T q 0) as [->|H]; [left; reflexivity|]|]; right; intros E; injection E; auto. Defined.
Variable u0 : vec.
Hypothesis u0_parity : parity N (toC e) u0.
Hypothesis u0_nonzero : ~ zero u0.
Hypothesis u0_cop : forall a, a < N -> pr a <> a -> zero (cop a u0).
Hypothesis u0_eta : forall a, a < N -> pr a = a -> zero (eta a u0).
Fixpoint gs (i : nat) : vec := match i with
  | O => u0
  | S i => if om1_dec i then gs i else if Nat.leb (pr i) i then gs i else eta i (eta (pr i) (gs i))
  end.
Definition done i a := pr a = a \/ a < i \/ pr a < i.
Lemma gs_inv i : i <= N -> parity N (toC e) (gs i) /\ ~ zero (gs i) /\ (forall a, a < N -> ~ done i a -> zero (cop a (gs i))) /\ (forall a, a < N -> done i a -> zero (eta a (gs i))).
Proof.
  induction i as [|i IH]; intros Hi.
  - cbn [gs]. split; [exact u0_parity|]. split; [exact u0_nonzero|]. unfold done. split; [intros a Ha D; apply u0_cop; lia|intros a Ha D; apply u0_eta; lia].
  - destruct (IH ltac:(lia)) as (P & NZ & C & E). assert (Hs : i < N) by lia. cbn [gs].
    assert (Keep : (done i i \/ om i = k1) -> parity N (toC e) (gs i) /\ ~ zero (gs i) /\ (forall a, a < N -> ~ done (S i) a -> zero (cop a (gs i))) /\ (forall a, a < N -> done (S i) a -> zero (eta a (gs i)))).
    { intros K. split; [exact P|]. split; [exact NZ|]. split; [intros a Ha D; apply C; [exact Ha|unfold done in *; lia]|].
      intros a Ha D. assert (Dec : done i a \/ ~ done i a) by (unfold done; lia). destruct Dec as [D'|D']; [apply E; assumption|]. 
      assert (a = i \/ pr a = i) as [-> | F] by (unfold done in *; lia).
      - destruct K as [K|K]; [contradiction|]. intros is His. rewrite cop_om1 by exact K. apply C; assumption.
      - destruct K as [K|K]; [exfalso; apply D'; subst i; unfold done in *; rewrite pr_pr in K by exact Ha; lia|].
        intros is His. rewrite cop_om1; [apply C; assumption|]. rewrite <- (pr_pr a Ha), F, om_pr, K by exact Hs. apply kconj_1. }
    destruct (om1_dec i) as [O|O]; [apply Keep; auto|]. destruct (Nat.leb_spec (pr i) i) as [L|L]; [apply Keep; left; unfold done; lia|]. clear Keep.
    set (b := pr i) in *. assert (Hb : b < N) by (apply pr_lt; exact Hs). assert (Eb : pr b = i) by (apply pr_pr; exact Hs).
    assert (Ob : om b <> k1).
    { unfold b. rewrite om_pr by exact Hs. intros F. apply O. rewrite <- (kconj_invol CS (om i)), F. apply kconj_1. }
    assert (Di : ~ done i i) by (unfold done; fold b; lia). assert (Db : ~ done i b) by (unfold done; rewrite Eb; lia).
    split; [replace (toC e) with (- - toC e : CS)%K by ring; apply parity_lop, parity_lop; exact P|]. split.
    + apply eta_nonzero; [exact Hs|exact O| |].
      * fold b. apply cop_zero_past; [exact Hb|exact Hb|rewrite Eb; lia|]. apply C; assumption.
      * apply eta_nonzero; [exact Hb|exact Ob| |exact NZ]. rewrite Eb. apply C; assumption.
    + split.
      * intros a Ha F. assert (a <> i /\ a <> b) as [F1 F2] by (split; intros ->; apply F; unfold done; rewrite ?Eb; lia). assert (F3 : ~ done i a) by (unfold done in *; lia).
        apply cop_zero_past; [exact Ha|exact Hs|exact F2|]. apply cop_zero_past; [exact Ha|exact Hb|rewrite Eb; exact F1|]. apply C; assumption.
      * intros a Ha D. destruct (Nat.eq_dec a i) as [->|N1]; [apply eta_sq; exact Hs|]. destruct (Nat.eq_dec a b) as [->|N2].
        -- apply eta_zero_past; [exact Hb|exact Hs|]. apply eta_sq. exact Hb.
        -- apply eta_zero_past; [exact Ha|exact Hs|]. apply eta_zero_past; [exact Ha|exact Hb|]. apply E; [exact Ha|]. unfold done in *. 
           assert (pr a <> i) by (intros F; apply N2; rewrite <- (pr_pr a Ha), F; reflexivity). lia.
Qed.
Definition ground : vec := gs N.
Lemma ground_inv : parity N (toC e) ground /\ ~ zero ground /\ forall a, a < N -> zero (eta a ground).
Proof.
  destruct (gs_inv N ltac:(lia)) as (P & NZ & _ & E). split; [exact P|]. split; [exact NZ|]. intros a Ha. apply E; [exact Ha|]. unfold done. lia.
Qed.

(** ** Its energy *)
Section Eigen.
Variable v : vec.
Hypothesis P : parity N (toC e) v.
Hypothesis Z : forall a, a < N -> zero (eta a v).
Definition none (_ : nat) : CS := k0.
Definition xk l := lop N (cf l) none.
Definition yk l := lop N none (cf l).
Definition xk' l := lop N (ef l) none.
Lemma y_of_x l is : l < N -> inr is (conf N) -> yk l v is = (- kconj (om l) * xk l v is)%K.
Proof.
  intros Hl Hi. pose proof (Z l Hl is Hi) as Q. assert (E : eta l v is = (xk l v is + om l * yk l v is)%K).
  { unfold eta, xk, yk, lop, none. rewrite <- bigsum_mul_l, <- bigsum_add. apply bigsum_ext. intros j _. ring. }
  rewrite E in Q. transitivity ((om l * kconj (om l)) * yk l v is)%K; [rewrite om_unit; ring|]. transitivity (kconj (om l) * (xk l v is + om l * yk l v is) - kconj (om l) * xk l v is)%K; [ring|]. rewrite Q. ring.
Qed.
Definition g is j b : CS := xop j (yop b v) is.
Lemma xk'_yk l is : xk' l (yk l v) is = bigsum N (fun j => bigsum N (fun b => ef l j * cf l b * g is j b))%K.
Proof.
  unfold xk', lop at 1. apply bigsum_ext. intros j _. unfold xop at 1, none at 1. unfold yk, lop. transitivity (ef l j * (sg j is * bigsum N (fun b => none b * xop b v (fl j is) + cf l b * yop b v (fl j is))))%K; [unfold none; ring|].
  rewrite <- !bigsum_mul_l. apply bigsum_ext. intros b _. unfold g, xop, none. ring.
Qed.
Lemma ef_diff l c d : (ef l c * kconj (ef l d))%K = (cos (an l * (INR c - INR d)), sin (an l * (INR c - INR d)))%R.
Proof. replace (an l * (INR c - INR d))%R with (an l * INR c - an l * INR d)%R by ring. rewrite cos_minus, sin_minus. unfold ef. apply cplx_eq; cbn; ring. Qed.
Lemma sin_sum r : rsumn N (fun l => sin (an l * (INR r))) = 0%R.
Proof.
  pose proof (pr_sum (fun l => ef l r)) as Q. rewrite (bigsum_ext _ (fun l => ef (pr l) r) (fun l => kconj (ef l r))) in Q by (intros l Hl; apply pr_ef; exact Hl).
  apply (f_equal Cim) in Q. rewrite !Cim_bigsum in Q. unfold ef, Cim in Q. cbn in Q. assert (F : rsumn N (fun l => - sin (an l * INR r))%R = (- 1 * rsumn N (fun l => sin (an l * INR r)))%R) by (rewrite <- rsumn_mul_l; apply rsumn_ext; intros; ring). lra.
Qed.
Lemma sin_sum_diff c d : rsumn N (fun l => sin (an l * (INR c - INR d))) = 0%R.
Proof.
  destruct (Nat.le_ge_cases d c) as [H|H].
  - rewrite <- minus_INR by exact H. apply sin_sum.
  - rewrite (rsumn_ext N _ (fun l => - 1 * sin (an l * INR (d - c)))%R) by (intros l _; rewrite minus_INR by exact H; replace (an l * (INR c - INR d))%R with (- (an l * (INR d - INR c)))%R by ring; rewrite sin_neg; ring).
    rewrite rsumn_mul_l, sin_sum. ring.
Qed.
Notation tau := (tau N e).
Lemma ef_kern j b : j < N -> b < N -> bigsum N (fun l => ef l j * kconj (ef l (S b)))%K = toC (INR N * (if Nat.eqb j (nxt N b) then tau b else 0)) /\
  bigsum N (fun l => ef l (S b) * kconj (ef l j))%K = toC (INR N * (if Nat.eqb j (nxt N b) then tau b else 0)).
Proof.
  intros Hj Hb. pose proof (kern N HN t0 e Ht j b Hj Hb) as Q.
  split; (rewrite (bigsum_ext _ _ _ (fun l _ => ef_diff l _ _)); apply cplx_eq; [rewrite Cre_bigsum|rewrite Cim_bigsum; cbn [snd Cim]; apply sin_sum_diff]).
  - exact Q.
  - unfold toC, Cre. cbn [fst]. rewrite <- Q. apply rsumn_ext. intros l _. rewrite <- cos_neg. f_equal. ring.
Qed.
Lemma h_angles is : inr is (conf N) -> bigsum N (fun l => mu l * xk' l (yk l v) is)%K = (toC (INR N) * happly (xyH gamma N) N v is)%K.
Proof.
  intros Hi. rewrite happly_xy by exact Hi.
  transitivity (bigsum N (fun s => toC (INR N) * (toC ((1 + gamma) / 4) * (toC (tau s) * g is (nxt N s) s) + toC ((1 - gamma) / 4) * (toC (tau s) * g is s (nxt N s)))))%K.
  - transitivity (bigsum N (fun j => bigsum N (fun b => (toC ((1 + gamma) / 4) * bigsum N (fun l => ef l j * kconj (ef l (S b))) + toC ((1 - gamma) / 4) * bigsum N (fun l => ef l (S j) * kconj (ef l b))) * g is j b)))%K.
    + rewrite (bigsum_ext N (fun l => mu l * xk' l (yk l v) is)%K (fun l => bigsum N (fun j => bigsum N (fun b => mu l * (ef l j * cf l b * g is j b))))%K) by (intros l _; rewrite xk'_yk, <- bigsum_mul_l; apply bigsum_ext; intros j _; rewrite <- bigsum_mul_l; reflexivity).
      rewrite bigsum_swap. apply bigsum_ext. intros j _. rewrite bigsum_swap. apply bigsum_ext. intros b _. rewrite <- !bigsum_mul_l, <- bigsum_add, <- bigsum_mul_r. apply bigsum_ext. intros l _.
      unfold mu, cf. rewrite (ef_S l j), (ef_S l b), kconj_mul. ring.
    + rewrite (bigsum_ext N _ (fun j => bigsum N (fun b => (if Nat.eqb j (nxt N b) then toC (INR N) * (toC ((1 + gamma) / 4) * (toC (tau b) * g is (nxt N b) b)) else k0)) + toC (INR N) * (toC ((1 - gamma) / 4) * (toC (tau j) * g is j (nxt N j))))%K).
      * rewrite bigsum_add, bigsum_swap, <- bigsum_add. apply bigsum_ext. intros s Hs. rewrite (bigsum_single N (nxt N s)); [|apply nxt_lt; lia|intros k _ Ne; apply Nat.eqb_neq in Ne; rewrite Ne; reflexivity]. rewrite Nat.eqb_refl. ring.
      * intros j Hj. transitivity (bigsum N (fun b => (if Nat.eqb j (nxt N b) then toC (INR N) * (toC ((1 + gamma) / 4) * (toC (tau b) * g is (nxt N b) b)) else k0) + (if Nat.eqb b (nxt N j) then toC (INR N) * (toC ((1 - gamma) / 4) * (toC (tau j) * g is j (nxt N j))) else k0))%K).
        -- apply bigsum_ext. intros b Hb. rewrite (proj1 (ef_kern j b Hj Hb)), (proj2 (ef_kern b j Hb Hj)). rewrite !toC_mul.
           destruct (Nat.eqb_spec j (nxt N b)) as [E1|E1], (Nat.eqb_spec b (nxt N j)) as [E2|E2]; rewrite <- ?E1, <- ?E2; change (toC 0) with (k0 : CS); ring.
        -- rewrite bigsum_add. f_equal. rewrite (bigsum_single N (nxt N j)); [rewrite Nat.eqb_refl; reflexivity|apply nxt_lt; lia|intros k _ Ne; apply Nat.eqb_neq in Ne; rewrite Ne; reflexivity].
  - rewrite bigsum_mul_l. f_equal. apply bigsum_ext. intros s Hs. fold (nxt N s). unfold g. rewrite (xy_xx N (toC e) v is s) by (assumption || lia). rewrite (xy_yy N (toC e) v is s) by (assumption || lia).
    assert (Ne : s <> nxt N s) by (unfold nxt; intros E; destruct (Nat.eq_dec (S s) N) as [E1|E1]; [rewrite E1, Nat.mod_same in E by lia; lia|rewrite Nat.mod_small in E by lia; lia]).
    rewrite (flip_fl s (nxt N s) is Ne). set (u := v (fl s (fl (nxt N s) is))). replace (if Nat.eqb (S s) N then (- toC e * u)%K else u) with (toC (tau s) * u)%K by (unfold PfXyLow.tau; destruct (Nat.eqb (S s) N); [f_equal; apply cplx_eq; cbn; ring|change (toC 1) with (k1 : CS); ring]).
    apply conf_iff in Hi. destruct Hi as [L H]. rewrite coup_sgn by (apply H; first [exact Hs|apply nxt_lt; lia]). assert (Hg : forall i, sgn i = toC (sgnr i) :> CS) by (intros i; unfold sgn, sgnr; destruct (Nat.eqb i 0); [reflexivity|apply cplx_eq; cbn; ring]).
    rewrite !Hg. pose proof (tau_sq N e He s) as T. set (t := tau s) in *. set (p := sgnr _). set (q := sgnr _).
    transitivity ((toC t * toC t) * (toC ((1 + gamma) / 4) * u + toC ((1 - gamma) / 4) * (- (toC p * toC q) * u)))%K; [ring|]. rewrite <- toC_mul, T. destruct u as [x y]. apply cplx_eq; cbn; field.
Qed.
Theorem eigen is : inr is (conf N) -> happly (xyH gamma N) N v is = (toC (- (1 / 2) * rsumn N (fun l => excitation gamma (an l))) * v is)%K.
Proof.
  intros Hi. pose proof (h_angles is Hi) as Q.
  rewrite (bigsum_ext N _ (fun l => toC (- (1 / 2)) * (toC (lam l) * xk' l (xk l v) is))%K) in Q.
  2:{ intros l Hl. unfold xk' at 1. rewrite (lop_ext N _ _ (yk l v) (fun js => - kconj (om l) * xk l v js)%K (fun js Hj => y_of_x l js Hl Hj) is Hi), lop_scale. fold (xk' l).
      transitivity (- (mu l * kconj (om l)) * xk' l (xk l v) is)%K; [ring|]. rewrite mu_om. destruct (xk' l (xk l v) is). apply cplx_eq; cbn; field. }
  rewrite bigsum_mul_l in Q. set (S0 := bigsum N (fun l => toC (lam l) * xk' l (xk l v) is)%K) in Q.
  assert (F : forall l, l < N -> xk' l (xk l v) is = xk (pr l) (xk' (pr l) v) is).
  { intros l Hl. unfold xk', xk. assert (A : forall j, cf (pr l) j = ef l j) by (intros j; unfold cf; rewrite pr_ef by exact Hl; apply kconj_invol). assert (B : forall j, ef (pr l) j = cf l j) by (intros j; unfold cf; apply pr_ef; exact Hl).
    unfold lop. apply bigsum_ext. intros j _. unfold xop, yop. rewrite A. rewrite (bigsum_ext N (fun j0 => cf l j0 * (sg j0 (fl j is) * v (fl j0 (fl j is))) + none j0 * (sg (S j0) (fl j is) * v (fl j0 (fl j is))))%K (fun j0 => ef (pr l) j0 * (sg j0 (fl j is) * v (fl j0 (fl j is))) + none j0 * (sg (S j0) (fl j is) * v (fl j0 (fl j is))))%K); [reflexivity|]. intros b _. rewrite B. reflexivity. }
  assert (S1 : S0 = bigsum N (fun l => toC (lam l) * xk l (xk' l v) is)%K).
  { rewrite <- (pr_sum (fun l => toC (lam l) * xk l (xk' l v) is)%K). apply bigsum_ext. intros l Hl. rewrite F by exact Hl. rewrite lam_pr by exact Hl. reflexivity. }
  assert (S2 : (S0 + S0 = bigsum N (fun l => toC (lam l) * ((toC (INR N) + toC (INR N)) * v is)))%K).
  { rewrite S1 at 2. unfold S0. rewrite <- bigsum_add. apply bigsum_ext. intros l Hl. pose proof (lop_anti N (ef l) none (cf l) none v is Hi) as A. fold (xk' l) in A. fold (xk l) in A.
    transitivity (toC (lam l) * (xk' l (xk l v) is + xk l (xk' l v) is))%K; [ring|]. rewrite A. f_equal. f_equal. rewrite (bigsum_ext _ _ (fun _ => toC 2)).
    - rewrite bigsum_toC. apply cplx_eq; cbn; ring.
    - intros j _. unfold cf, none. rewrite ef_unit. apply cplx_eq; cbn; ring. }
  rewrite (bigsum_mul_r N ((toC (INR N) + toC (INR N)) * v is)%K (fun l => toC (lam l))) in S2.
  assert (S3 : bigsum N (fun l => toC (lam l)) = toC (rsumn N lam)) by (apply cplx_eq; [rewrite Cre_bigsum; reflexivity|rewrite Cim_bigsum; cbn; apply rsumn_zero; reflexivity]).
  rewrite S3 in S2. change (rsumn N (fun l => excitation gamma (an l))) with (rsumn N lam). pose proof NR_pos as PN. set (h := happly _ _ _ _) in *. set (T := rsumn N lam) in *. clearbody S0 h T.
  destruct S0 as [s1 s2], h as [h1 h2], (v is) as [x y]. pose proof (f_equal Cre Q) as Q1. pose proof (f_equal Cim Q) as Q2. pose proof (f_equal Cre S2) as R1. pose proof (f_equal Cim S2) as R2. unfold Cre, Cim in *. cbn in Q1, Q2, R1, R2.
  apply cplx_eq; cbn; apply (Rmult_eq_reg_l (INR N)); lra.
Qed.
End Eigen.
Lemma cs_zero_dec (x : CS) : {x = k0} + {x <> k0}.
Proof. destruct x as [p q]. destruct (Req_EM_T p 0) as [->|H]; [destruct (Req_EM_T q 0) as [->|H]; [left; reflexivity|]|]; right; intros E; injection E; auto. Qed.
Lemma nonzero_at (u : vec) : ~ zero u -> exists is, inr is (conf N) /\ u is <> k0.
Proof.
  intros H. destruct (Exists_dec (fun is => u is <> k0) (idxs (conf N))) as [D|D].
  - intros is. destruct (cs_zero_dec (u is)); [right; auto|left; auto].
  - apply Exists_exists in D. destruct D as (is & Hi & Q). exists is. apply in_idxs in Hi. auto.
  - exfalso. apply H. intros is Hi. destruct (cs_zero_dec (u is)) as [E|E]; [exact E|]. exfalso. apply D. apply Exists_exists. exists is. split; [apply in_idxs; exact Hi|exact E].
Qed.
Definition eigenvalue (x : R) : Prop := exists v, (exists is, inr is (conf N) /\ v is <> k0) /\ forall is, inr is (conf N) -> happly (xyH gamma N) N v is = (toC x * v is)%K.
Theorem sector_eigenvalue : eigenvalue (- (1 / 2) * rsumn N (fun l => excitation gamma (an l))).
Proof. destruct ground_inv as (P & NZ & Z). exists ground. split; [apply nonzero_at; exact NZ|]. intros is Hi. apply (eigen ground P Z is Hi). Qed.
End Modes.

(** ** The two families of angles, for an even number of sites *)
Lemma eigenvalue_anti n gamma : 1 <= n -> eigenvalue (2 * n) gamma (- (1 / 2) * anti (2 * n) gamma).
Proof.
  intros Hn. set (N := 2 * n). assert (HN : 2 <= N) by (unfold N; lia). pose proof (NR_pos N HN) as PN.
  apply (sector_eigenvalue N gamma (PI / INR N)%R 1%R (fun a => N - 1 - a) HN) with (u0 := vac).
  - ring.
  - replace (PI / INR N * INR N)%R with PI by (field; lra). rewrite cos_PI. ring.
  - intros; lia.
  - intros; lia.
  - intros a j Ha. assert (E : (ang N (PI / INR N) (N - 1 - a) * INR j = 2 * PI * INR j - ang N (PI / INR N) a * INR j)%R).
    { unfold ang. rewrite !minus_INR by lia. cbn [INR]. field. lra. }
    unfold ef. rewrite E. replace (2 * PI * INR j - ang N (PI / INR N) a * INR j)%R with (- (ang N (PI / INR N) a * INR j) + 2 * INR j * PI)%R by ring.
    rewrite cos_period, sin_period, cos_neg, sin_neg. reflexivity.
  - apply vac_parity.
  - apply (vac_nonzero N HN).
  - intros a Ha _. apply (vac_cop N _ HN).
  - intros a Ha F. unfold N in *. lia.
Qed.
Lemma eigenvalue_per n gamma : 1 <= n -> eigenvalue (2 * n) gamma (- (1 / 2) * per (2 * n) gamma).
Proof.
  intros Hn. set (N := 2 * n). assert (HN : 2 <= N) by (unfold N; lia). pose proof (NR_pos N HN) as PN. set (pr := fun a => if Nat.eqb a 0 then 0 else N - a).
  assert (P1 : forall a, a < N -> pr a < N) by (intros a Ha; unfold pr; destruct (Nat.eqb_spec a 0); lia).
  assert (P2 : forall a, a < N -> pr (pr a) = a) by (intros a Ha; unfold pr; destruct (Nat.eqb_spec a 0) as [->|]; [reflexivity|]; destruct (Nat.eqb_spec (N - a) 0); lia).
  assert (P3 : forall a j, a < N -> ef N 0 (pr a) j = kconj (ef N 0 a j)).
  { intros a j Ha. unfold pr. destruct (Nat.eqb_spec a 0) as [->|Ne].
    - unfold ef, ang. cbn [INR]. replace ((0 + 2 * PI * 0 / INR N) * INR j)%R with 0%R by (field; lra). rewrite sin_0. apply cplx_eq; cbn; ring.
    - assert (E : (ang N 0 (N - a) * INR j = - (ang N 0 a * INR j) + 2 * INR j * PI)%R) by (unfold ang; rewrite !minus_INR by lia; field; lra).
      unfold ef. rewrite E, cos_period, sin_period, cos_neg, sin_neg. reflexivity. }
  assert (A0 : ang N 0 0 = 0%R) by (unfold ang; cbn [INR]; field; lra). assert (An : ang N 0 n = PI) by (unfold ang, N in *; rewrite mult_INR in *; cbn in *; field; lra).
  assert (O0 : om N gamma 0 0 = k1).
  { unfold om, lam. rewrite A0. assert (L : excitation gamma 0 = 1%R) by (unfold excitation; rewrite cos_0, sin_0; replace (1 ^ 2 + gamma ^ 2 * 0 ^ 2)%R with 1%R by ring; apply sqrt_1).
    rewrite L, cos_0, sin_0. destruct (Req_EM_T 1 0); [reflexivity|]. apply cplx_eq; cbn; field. }
  assert (On : om N gamma 0 n <> k1).
  { unfold om, lam. rewrite An. assert (L : excitation gamma PI = 1%R) by (unfold excitation; rewrite cos_PI, sin_PI; replace ((-1) ^ 2 + gamma ^ 2 * 0 ^ 2)%R with 1%R by ring; apply sqrt_1).
    rewrite L, cos_PI, sin_PI. destruct (Req_EM_T 1 0); [lra|]. intros E. apply (f_equal Cre) in E. cbn in E. lra. }
  assert (Ec : (cos (0 * INR N) = - - 1)%R) by (rewrite Rmult_0_l, cos_0; ring). assert (Hn' : n < N) by (unfold N; lia). assert (Pn : pr n = n) by (unfold pr, N; destruct (Nat.eqb_spec n 0); lia).
  assert (Fix : forall a, a < N -> pr a = a -> a = 0 \/ a = n) by (intros a Ha; unfold pr, N; destruct (Nat.eqb_spec a 0); lia).
  replace (per N gamma) with (rsumn N (fun l => excitation gamma (ang N 0 l))) by (apply rsumn_ext; intros; f_equal; unfold ang; ring).
  apply (sector_eigenvalue N gamma 0%R (- 1)%R pr HN ltac:(ring) Ec P1 P2 P3 (eta N gamma 0 n vac)).
  - replace (toC (- 1)) with (- k1 : CS)%K by (apply cplx_eq; cbn; ring). apply parity_lop, vac_parity.
  - apply (eta_nonzero N gamma 0 pr HN P1 P3); [exact Hn'|exact On|apply (vac_cop N _ HN)|apply (vac_nonzero N HN)].
  - intros a Ha Ne. apply (cop_zero_past N gamma 0 pr HN P1 P3); [exact Ha|exact Hn'|rewrite Pn; intros ->; auto|apply (vac_cop N _ HN)].
  - intros a Ha F. destruct (Fix a Ha F) as [-> | ->].
    + intros is Hi. rewrite cop_om1 by exact O0. apply (cop_zero_past N gamma 0 pr HN P1 P3); [lia|exact Hn'|rewrite Pn; lia|apply (vac_cop N _ HN)|exact Hi].
    + apply (eta_sq N gamma 0 pr HN P1 P3). exact Hn'.
Qed.
(** The ground state energy, for every number of sites that is even and every [gamma] *)
Theorem xy_ground n gamma : 1 <= n -> ground_energy (xyH gamma (2 * n)) (2 * n) (- (1 / 2) * Rmax (per (2 * n) gamma) (anti (2 * n) gamma)).
Proof.
  intros Hn. split.
  - unfold Rmax. destruct (Rle_dec _ _); [apply (eigenvalue_anti n gamma Hn)|apply (eigenvalue_per n gamma Hn)].
  - intros v. apply xyH_low; [lia|apply Rmax_l|apply Rmax_r].
Qed.
