(** [eig] and [eig_sum]: the value and the vector in terms of [sandwich] and inner products. *)
From Verif Require Export PfEigVal PfSand.
From Verif Require Import PfCanon Cplx PfHistory PropAux PfHS PfPovmArr.
From Coq Require Import Reals Lra.
Open Scope nat_scope.

Section Api.
Context {K : StarRing}.
Add Ring Kr : (k_ring K).

Lemma start_copy_all (x z : ltens K) ds : mpa_copy x = Ok z -> mps_inv ds x /\ cform_ok x /\ canon_true x -> lts z = lts x /\ mps_inv ds z /\ cform_ok z /\ canon_true z.
Proof.
  intros E (H & Cf & Ct). pose proof (start_copy x z ds E H) as Hz. destruct x as [ts l r]. unfold mpa_copy, lt_copy in E. cbn [lts lcan rcan] in E.
  pose proof E as E'. apply lt_init_inv in E'. destruct E' as (L & _ & C & _).
  unfold lt_init in E. cbn [fst snd] in E. unfold cform_ok, cf_ok, llen in Cf. cbn [lts lcan rcan] in Cf.
  repeat match goal with E : praise_unless _ ?b _ = Ok _ |- _ => destruct b; [cbn [praise_unless] in E|discriminate] | E : passert ?b _ = Ok _ |- _ => destruct b; [cbn [passert] in E|discriminate]
    | E : bind ?e _ = Ok _ |- _ => destruct e; [cbn [bind] in E|discriminate] end.
  injection E as <-. cbn [lts lcan rcan] in *. replace (if (r =? 0)%Z then Z.of_nat (length ts) else r) with r in * by (destruct (Z.eqb_spec r 0); lia).
  split; [reflexivity|]. split; [exact Hz|]. split; [exact C|]. exact Ct.
Qed.
Lemma start_all rs sv rk ds (x : ltens K) : estart_ok rs sv ds -> start_vector rs sv rk = Ok x -> mps_inv ds x /\ cform_ok x /\ canon_true x.
Proof.
  intros H E. unfold start_vector in E. apply bind_inv in E. destruct E as (z & E1 & E2). apply passert_inv in E2. destruct E2 as [_ E2].
  injection E2 as <-. destruct sv as [y|]; cbn in H.
  - apply (start_copy_all y z ds E1 H).
  - destruct rk as [[|[|r]]|]; try discriminate; eapply H; eauto.
Qed.
Lemma estart_start rs sv ds : estart_ok (K := K) rs sv ds -> start_ok rs sv ds.
Proof. unfold estart_ok, start_ok. destruct sv; [tauto|]. intros H r x E. apply (H r x E). Qed.

Lemma mps_ok (x : ltens K) : chain_ok (lts x) 1 1 -> mpa_ok x.
Proof. intros (N & B & _). split; assumption. Qed.
Lemma state_entry ds (x : ltens K) is : chain_ok (lts x) 1 1 -> mps_like (lts x) ds -> inr is ds -> entry x (singles is) = state x is.
Proof. intros C M Hi. unfold state. apply entry_amp; [apply mps_ok; exact C|]. unfold mshape. rewrite M. apply singles_valid. exact Hi. Qed.
Lemma ip_inner_of ds (x y : ltens K) : chain_ok (lts x) 1 1 -> mps_like (lts x) ds -> chain_ok (lts y) 1 1 -> mps_like (lts y) ds ->
  ip ds (state x) (state y) = inner_of x y.
Proof.
  intros Cx Mx Cy My. unfold ip, inner_of, mshape. rewrite Mx, msums_singles. apply msum_ext. intros is Hi.
  rewrite (state_entry ds x), (state_entry ds y) by assumption. reflexivity.
Qed.
Definition mpo_mat (mpo : ltens K) (is js : list nat) : K := entry mpo (pairs is js).
Lemma mpo_mat_amp ds (mpo : ltens K) is js : is_op mpo ds -> inr is ds -> inr js ds -> mpo_mat mpo is js = amp (lts mpo) (pairs is js) 0 0.
Proof. intros [H [M L]] Hi Hj. apply entry_amp; [exact H|]. unfold mshape. rewrite M. clear - Hi Hj. revert is js Hi Hj. unfold pairs. induction ds as [|d ds IH]; intros is js Hi Hj; inversion Hi; subst; inversion Hj; subst; cbn; constructor; [repeat constructor; assumption|apply IH; assumption]. Qed.
Lemma mexp_M ds (M N : list nat -> list nat -> K) f : (forall is js, inr is ds -> inr js ds -> M is js = N is js) -> mexp ds M f = mexp ds N f.
Proof. intros H. unfold mexp, melem. apply msum_ext. intros is Hi. apply msum_ext. intros js Hj. rewrite H by assumption. reflexivity. Qed.
Lemma sandwich_mexp ds (mpo x : ltens K) : is_op mpo ds -> chain_ok (lts x) 1 1 -> mps_like (lts x) ds ->
  sandwich mpo x None = Ok (mexp ds (fun is js => amp (lts mpo) (pairs is js) 0 0) (state x)).
Proof.
  intros Ho C M. pose proof Ho as [Hm [Mm L]]. change (sandwich mpo x None) with (sandwich mpo x (Some x)).
  rewrite (sandwich_spec mpo x x ds ds Hm (mps_ok x C) (mps_ok x C) Mm L M M). f_equal. unfold mexp, melem.
  apply msum_ext. intros is Hi. apply msum_ext. intros js Hj. rewrite !(state_entry ds x) by assumption.
  rewrite <- (mpo_mat_amp ds mpo is js Ho Hi Hj). reflexivity.
Qed.

Variable qr : nd K -> res (nd K * nd K).
Variable svd : nd K -> res (nd K * list K * nd K).
Variable eigs : nd K -> list K -> res (nd K * nd K).
Hypothesis Hqr : qr_sound qr.
Hypothesis Hsvd : svd_sound svd.
Hypothesis Heigs : eigs_wf eigs.

(** The vector before the last truncation. *)
Definition value_of (ds : list nat) (h : bool) (M : list nat -> list nat -> K) (v : nat) (val : K) (y : ltens K) : Prop :=
  exists z, chain_ok (lts z) 1 1 /\ mps_like (lts z) ds /\
    (eigs_pairs h eigs -> mexp ds M (state z) = (val * norm2_of z)%K) /\ (eigs_unit h eigs -> norm2_of z = k1) /\
    inner_of y z = norm2_of y /\ (v = 1 -> forall is, inr is ds -> entry y (singles is) = entry z (singles is)).
Lemma from_value ds h M v val y : chain_ok (lts y) 1 1 -> mps_like (lts y) ds -> from_vec eigs ds M v h y val -> value_of ds h M v val y.
Proof.
  intros Cy My (z & Cz & Mz & F1 & F2 & F3 & F4). exists z. unfold norm2_of. rewrite <- !(ip_inner_of ds) by assumption.
  split; [exact Cz|]. split; [exact Mz|]. split; [exact F1|]. split; [exact F2|]. split; [exact F3|].
  intros E is Hi. rewrite (state_entry ds y), (state_entry ds z) by assumption. auto.
Qed.

Section Both.
Variables (ds : list nat) (h : bool) (M : list nat -> list nat -> K) (x : ltens K) (v mr : nat).
Hypothesis HM : h = true -> herm_op ds M.
Hypothesis Hv : 1 <= v < length ds.
Hypothesis Hx : mps_inv ds x /\ cform_ok x /\ canon_true x.
Hypothesis Hr : 0 < mr /\ Forall (fun k => k <= mr) (ranks x).
Theorem dense_value num val y : dense_eig qr svd eigs ds M v num x = Ok (val, y) ->
  mpa_ok y /\ mps_inv ds y /\ cform_ok y /\ canon_true y /\ Forall (fun k => k <= mr) (ranks y) /\ value_of ds h M v val y.
Proof.
  intros E. destruct Hx as (H1 & H2 & H3). destruct (dense_eig_from qr svd eigs Hqr Hsvd Heigs ds M v mr h HM ltac:(lia) ltac:(lia) num x y val) as [A F]; auto; try lia; try tauto.
  destruct A as (I & C & T & _ & _ & R). pose proof I as (Cy & My & _). split; [apply mps_ok; exact Cy|]. split; [exact I|]. split; [exact C|]. split; [exact T|]. split; [exact R|].
  apply from_value; assumption.
Qed.
End Both.

Lemma ranks_bound (x : ltens K) : exists mr, 0 < mr /\ Forall (fun k => k <= mr) (ranks x).
Proof.
  induction (ranks x) as [|k l (m & Hm & F)]; [exists 1; split; [lia|constructor]|]. exists (Nat.max k m). split; [lia|].
  constructor; [lia|]. eapply Forall_impl; [|exact F]. cbn beta. intros. lia.
Qed.
Theorem dense_value_all ds h M (x : ltens K) v : (h = true -> herm_op ds M) -> 1 <= v < length ds -> mps_inv ds x /\ cform_ok x /\ canon_true x ->
  forall num val y, dense_eig qr svd eigs ds M v num x = Ok (val, y) ->
  mps_inv ds y /\ cform_ok y /\ canon_true y /\ (forall mr, 0 < mr -> Forall (fun k => k <= mr) (ranks x) -> Forall (fun k => k <= mr) (ranks y)) /\ value_of ds h M v val y.
Proof.
  intros HM Hv Hx num val y E. destruct (ranks_bound x) as (mr & Hr). destruct (dense_value ds h M x v mr HM Hv Hx Hr num val y E) as (_ & A1 & A2 & A3 & _ & A4).
  split; [exact A1|]. split; [exact A2|]. split; [exact A3|]. split; [|exact A4]. intros m Hm F.
  destruct (dense_value ds h M x v m HM Hv Hx (conj Hm F) num val y E) as (_ & _ & _ & _ & R & _). exact R.
Qed.

Lemma herm_mat ds (mpo : ltens K) : is_op mpo ds -> herm_op ds (mpo_mat mpo) -> herm_op ds (fun is js => amp (lts mpo) (pairs is js) 0 0).
Proof. intros Ho H is js Hi Hj. rewrite <- !(mpo_mat_amp ds) by assumption. apply H; assumption. Qed.

Theorem eig_value rs (mpo : ltens K) num v sv rk ds h val y :
  is_op mpo ds -> (h = true -> herm_op ds (mpo_mat mpo)) -> 1 <= v -> estart_ok rs sv ds -> eig qr svd eigs rs mpo num v sv rk = Ok (val, y) ->
  exists x, start_vector rs sv rk = Ok x /\ v < length ds /\ mps_inv ds x /\ cform_ok x /\ canon_true x /\
    dense_eig qr svd eigs ds (fun is js => amp (lts mpo) (pairs is js) 0 0) v num x = Ok (val, y) /\
    mps_inv ds y /\ cform_ok y /\ canon_true y /\ (forall mr, 0 < mr -> Forall (fun k => k <= mr) (ranks x) -> Forall (fun k => k <= mr) (ranks y)) /\
    exists z, mps_inv ds z /\ (eigs_pairs h eigs -> sandwich mpo z None = Ok (val * norm2_of z)%K) /\ (eigs_unit h eigs -> norm2_of z = k1) /\
      inner_of y z = norm2_of y /\ (v = 1 -> forall is, inr is ds -> entry y (singles is) = entry z (singles is)).
Proof.
  intros Ho HM Hv Hst E. pose proof Ho as [H1 H2]. rewrite (eig_dense qr svd eigs Hqr Hsvd Heigs rs mpo num v sv rk ds H1 H2 Hv (estart_start _ _ _ Hst)) in E.
  apply passert_inv in E. destruct E as [Ev E]. apply Nat.ltb_lt in Ev. apply bind_inv in E. destruct E as (x & Ex & E). exists x.
  pose proof (start_all rs sv rk ds x Hst Ex) as Hx. split; [exact Ex|]. split; [exact Ev|]. split; [apply Hx|]. split; [apply Hx|]. split; [apply Hx|]. split; [exact E|].
  destruct (dense_value_all ds h _ x v (fun e => herm_mat ds mpo Ho (HM e)) ltac:(lia) Hx num val y E) as (A1 & A2 & A3 & A4 & z & Cz & Mz & F1 & F2 & F3 & F4).
  split; [exact A1|]. split; [exact A2|]. split; [exact A3|]. split; [exact A4|]. exists (mkLt (lts z) 0 (Z.of_nat (length (lts z)))). pose proof Cz as (Nz & _).
  split. { split; [exact Cz|]. split; [exact Mz|]. unfold cform_wk, llen. cbn [lts lcan rcan]. destruct (lts z); [contradiction|]. cbn [length]. lia. }
  split; [intros Hp; rewrite (sandwich_mexp ds) by (assumption || exact Cz || exact Mz); f_equal; exact (F1 Hp)|].
  split; [exact F2|]. split; [exact F3|exact F4].
Qed.
(** One site at a time: the value belongs to the returned vector. *)
Lemma norm2_ext ds (y z : ltens K) : mps_like (lts y) ds -> mps_like (lts z) ds -> (forall is, inr is ds -> entry y (singles is) = entry z (singles is)) -> norm2_of y = norm2_of z.
Proof. intros My Mz H. unfold norm2_of, inner_of, mshape. rewrite My, Mz, !msums_singles. apply msum_ext. intros is Hi. rewrite H by exact Hi. reflexivity. Qed.
Lemma sandwich_ext ds (mpo y z : ltens K) : is_op mpo ds -> mps_inv ds y -> mps_inv ds z -> (forall is, inr is ds -> entry y (singles is) = entry z (singles is)) ->
  sandwich mpo y None = sandwich mpo z None.
Proof.
  intros Ho (Cy & My & _) (Cz & Mz & _) H. rewrite (sandwich_mexp ds mpo y), (sandwich_mexp ds mpo z) by assumption. f_equal. apply mexp_ext.
  intros is Hi. rewrite <- (state_entry ds y), <- (state_entry ds z) by assumption. auto.
Qed.
Theorem eig_value1 rs (mpo : ltens K) num sv rk ds h val y :
  is_op mpo ds -> (h = true -> herm_op ds (mpo_mat mpo)) -> estart_ok rs sv ds -> eigs_pairs h eigs -> eig qr svd eigs rs mpo num 1 sv rk = Ok (val, y) ->
  sandwich mpo y None = Ok (val * norm2_of y)%K /\ (eigs_unit h eigs -> norm2_of y = k1 /\ sandwich mpo y None = Ok val).
Proof.
  intros Ho HM Hst Hp E. destruct (eig_value rs mpo num 1 sv rk ds h val y Ho HM (le_n 1) Hst E) as (x & _ & _ & _ & _ & _ & _ & Iy & _ & _ & _ & z & Iz & F1 & F2 & _ & F4).
  specialize (F1 Hp). specialize (F4 eq_refl). rewrite (sandwich_ext ds mpo y z Ho Iy Iz F4), (norm2_ext ds y z (proj1 (proj2 Iy)) (proj1 (proj2 Iz)) F4).
  split; [exact F1|]. intros Hu. specialize (F2 Hu). split; [exact F2|]. rewrite F1, F2. f_equal. ring.
Qed.

(** Sums of operators and of projectors. *)
Definition term_of (ds : list nat) (y m : ltens K) (c : K) : Prop :=
  (is_op m ds /\ sandwich m y None = Ok c) \/ (is_state m ds /\ c = inner_of y m * inner_of m y)%K.
Lemma mexp_term ds (y m : ltens K) c : mps_inv ds y -> term_of ds y m c -> mexp ds (mker m) (state y) = c.
Proof.
  intros (Cy & My & _) [[Ho E]|[Hs ->]].
  - rewrite (sandwich_mexp ds m y Ho Cy My) in E. injection E as <-. apply mexp_M. intros is js _ _. unfold mker. destruct (ndims_op _ _ Ho) as (l & ->). reflexivity.
  - pose proof Hs as [Cm Mm]. rewrite <- !(ip_inner_of ds) by assumption. unfold mexp, melem, ip. rewrite <- msum_mul_r. apply msum_ext. intros is Hi.
    rewrite <- msum_mul_l. apply msum_ext. intros js Hj. unfold mker. destruct (ndims_state _ _ Hs) as (l & ->). unfold state. ring.
Qed.
Lemma mexp_sum ds (y : ltens K) mpas cs : mps_inv ds y -> Forall2 (term_of ds y) mpas cs -> mexp ds (sum_ker mpas) (state y) = ksum cs.
Proof.
  intros Iy F. induction F as [|m c mpas cs Hc F IH].
  - unfold mexp, melem, sum_ker. cbn. apply msum_zero. intros is _. apply msum_zero. intros js _. ring.
  - cbn [ksum fold_right]. fold (ksum cs). rewrite <- IH, <- (mexp_term ds y m c Iy Hc). unfold mexp, melem. rewrite <- msum_add. apply msum_ext. intros is _.
    rewrite <- msum_add. apply msum_ext. intros js _. change (sum_ker (m :: mpas) is js) with (mker m is js + sum_ker mpas is js)%K. ring.
Qed.
Theorem eig_sum_value1 rs (mpas : list (ltens K)) num sv rk ds h val y cs : mpas <> [] -> Forall (fun m => is_op m ds \/ is_state m ds) mpas ->
  (h = true -> herm_op ds (sum_ker mpas)) -> estart_ok rs sv ds -> eigs_pairs h eigs -> eig_sum qr svd eigs rs mpas num 1 sv rk = Ok (val, y) ->
  Forall2 (term_of ds y) mpas cs -> ksum cs = (val * norm2_of y)%K /\ (eigs_unit h eigs -> norm2_of y = k1 /\ ksum cs = val).
Proof.
  intros Hne F HM Hst Hp E Hc. rewrite (eig_sum_dense qr svd eigs Hqr Hsvd Heigs rs mpas num 1 sv rk ds Hne F (le_n 1) (estart_start _ _ _ Hst)) in E.
  apply passert_inv in E. destruct E as [Ev E]. apply Nat.ltb_lt in Ev. apply bind_inv in E. destruct E as (x & Ex & E).
  pose proof (start_all rs sv rk ds x Hst Ex) as Hx.
  destruct (dense_value_all ds h _ x 1 HM ltac:(lia) Hx num val y E) as (Iy & _ & _ & _ & z & Cz & Mz & F1 & F2 & _ & F4). pose proof Iy as (Cy & My & _).
  specialize (F1 Hp). specialize (F4 eq_refl). rewrite <- (mexp_sum ds y mpas cs Iy Hc).
  rewrite (mexp_ext ds _ (state y) (state z)) by (intros is Hi; rewrite <- (state_entry ds y), <- (state_entry ds z) by assumption; auto).
  rewrite (norm2_ext ds y z My Mz F4). split; [exact F1|]. intros Hu. specialize (F2 Hu). split; [exact F2|]. rewrite F1, F2. ring.
Qed.
End Api.

(** ** Complex numbers *)
Section C.
Open Scope R_scope.
Add Ring Cr : (k_ring CS).
Variable qr : nd CS -> res (nd CS * nd CS).
Variable svd : nd CS -> res (nd CS * list CS * nd CS).
Variable eigs : nd CS -> list CS -> res (nd CS * nd CS).
Hypothesis Hqr : qr_sound qr.
Hypothesis Hsvd : svd_sound svd.
Hypothesis Heigs : eigs_wf eigs.

Lemma norm2_nonneg (x : ltens CS) : 0 <= Cre (norm2_of x).
Proof.
  unfold norm2_of, inner_of. assert (H : forall sh (f : list (list nat) -> CS), (forall i, cnonneg (f i)) -> cnonneg (msums sh f)).
  { induction sh as [|s sh IH]; intros f Hf; [apply Hf|]. cbn [msums]. apply cnonneg_msum. intros i _. apply IH. intros; apply Hf. }
  apply H. intros i. replace (kconj (entry x i) * entry x i)%K with (entry x i * kconj (entry x i))%K by ring. apply cnonneg_sq.
Qed.
Lemma dist2_split ds (y z : ltens CS) : mps_like (lts y) ds -> mps_like (lts z) ds -> inner_of y z = norm2_of y ->
  dist2_of y z = (norm2_of z - norm2_of y)%K.
Proof.
  intros My Mz E. assert (E' : inner_of z y = norm2_of y).
  { assert (C : kconj (inner_of y z) = inner_of z y).
    { unfold inner_of, mshape. rewrite My, Mz, !msums_singles, msum_conj. apply msum_ext. intros i _. rewrite (kconj_mul CS), (kconj_invol CS). ring. }
    rewrite <- C, E. unfold norm2_of, inner_of, mshape. rewrite My, !msums_singles, msum_conj. apply msum_ext. intros i _. rewrite (kconj_mul CS), (kconj_invol CS). ring. }
  transitivity (norm2_of y - inner_of y z - inner_of z y + norm2_of z)%K; [|rewrite E, E'; ring].
  unfold dist2_of, norm2_of, inner_of, mshape. rewrite My, Mz, !msums_singles.
  rewrite <- !msum_sub, <- msum_add. apply msum_ext. intros i _. rewrite (kconj_sub). ring.
Qed.
Lemma dist2_zero ds (y z : ltens CS) : mps_like (lts y) ds -> dist2_of y z = k0 -> forall is, inr is ds -> entry y (singles is) = entry z (singles is).
Proof.
  intros My E is Hi. unfold dist2_of, mshape in E. rewrite My, msums_singles in E.
  pose proof (msum_nonneg_zero ds (fun is => kconj (entry y (singles is) - entry z (singles is)) * (entry y (singles is) - entry z (singles is)))%K) as Q.
  specialize (Q ltac:(intros js _; cbv beta; match goal with |- cnonneg (kconj ?a * ?a)%K => replace (kconj a * a)%K with (a * kconj a)%K by ring end; apply cnonneg_sq) E is Hi). cbv beta in Q.
  assert (Z : (entry y (singles is) - entry z (singles is))%K = k0) by (apply sq_zero; rewrite <- Q; ring).
  transitivity (entry y (singles is) - entry z (singles is) + entry z (singles is))%K; [ring|]. rewrite Z. ring.
Qed.

Theorem eig_value_trunc rs (mpo : ltens CS) num v sv rk ds h val y :
  is_op mpo ds -> (h = true -> herm_op ds (mpo_mat mpo)) -> (1 <= v)%nat -> estart_ok rs sv ds -> eigs_pairs h eigs -> eigs_unit h eigs ->
  eig qr svd eigs rs mpo num v sv rk = Ok (val, y) ->
  Cre (norm2_of y) <= 1 /\ (exists z, mps_inv ds z /\ norm2_of z = k1 /\ sandwich mpo z None = Ok val /\ dist2_of y z = (k1 - norm2_of y)%K) /\
  (norm2_of y = k1 -> sandwich mpo y None = Ok val).
Proof.
  intros Ho HM Hv Hst Hp Hu E. destruct (eig_value qr svd eigs Hqr Hsvd Heigs rs mpo num v sv rk ds h val y Ho HM Hv Hst E) as (x & _ & _ & _ & _ & _ & _ & Iy & _ & _ & _ & z & Iz & F1 & F2 & F3 & _).
  specialize (F1 Hp). specialize (F2 Hu). pose proof Iy as (_ & My & _). pose proof Iz as (_ & Mz & _). pose proof (dist2_split ds y z My Mz F3) as D. rewrite F2 in D, F1.
  assert (Sz : sandwich mpo z None = Ok val) by (rewrite F1; f_equal; ring).
  split; [|split].
  - assert (N : 0 <= Cre (dist2_of y z)).
    { unfold dist2_of, mshape. rewrite My, msums_singles. apply cnonneg_msum. intros i _. match goal with |- cnonneg (kconj ?a * ?a)%K => replace (kconj a * a)%K with (a * kconj a)%K by ring end. apply cnonneg_sq. }
    rewrite D in N. unfold ksub, Cre in *. cbn in N |- *. lra.
  - exists z. auto.
  - intros N. rewrite N in D. rewrite <- Sz. apply (sandwich_ext ds); auto. apply (dist2_zero ds y z My). rewrite D. ring.
Qed.

(** The expectation values of vectors bound the value. *)
Theorem eig_value_range rs (mpo : ltens CS) num v sv rk ds h val y e :
  is_op mpo ds -> (h = true -> herm_op ds (mpo_mat mpo)) -> (1 <= v)%nat -> estart_ok rs sv ds -> eigs_pairs h eigs -> eigs_unit h eigs ->
  eig qr svd eigs rs mpo num v sv rk = Ok (val, y) ->
  (forall z q, mps_inv ds z -> norm2_of z = k1 -> sandwich mpo z None = Ok q -> e <= Cre q) -> e <= Cre val.
Proof.
  intros Ho HM Hv Hst Hp Hu E H. destruct (eig_value_trunc rs mpo num v sv rk ds h val y Ho HM Hv Hst Hp Hu E) as (_ & (z & Iz & Nz & Sz & _) & _). exact (H z val Iz Nz Sz).
Qed.

(** [which = 'SA']: smallest, ['LA']: largest, ['LM']: largest magnitude. *)
Inductive which := SA | LA | LM.
Definition better (w : which) (val q s : CS) : Prop :=
  match w with
  | SA => Cre val * Cre s <= Cre q
  | LA => Cre q <= Cre val * Cre s
  | LM => Rabs (Cre q) <= Rabs (Cre val) * Cre s
  end.
Lemma better_trans w (a b q s : CS) : 0 <= Cre s -> better w a b k1 -> better w b q s -> better w a q s.
Proof.
  intros Hs. assert (E1 : Cre k1 = 1) by reflexivity. destruct w; unfold better; rewrite E1; intros A B; [nra|nra|]. rewrite Rmult_1_r in A. eapply Rle_trans; [exact B|]. apply Rmult_le_compat_r; assumption.
Qed.
Theorem eig_value_best w rs (mpo : ltens CS) num sv rk ds h val y x q :
  is_op mpo ds -> (h = true -> herm_op ds (mpo_mat mpo)) -> estart_ok rs sv ds -> eigs_pairs h eigs -> eigs_unit h eigs -> eigs_best h (better w) eigs ->
  eig qr svd eigs rs mpo num 1 sv rk = Ok (val, y) -> start_vector rs sv rk = Ok x -> sandwich mpo x None = Ok q -> better w val q (norm2_of x).
Proof.
  intros Ho HM Hst Hp Hu Hb E Ex Eq. destruct (eig_value qr svd eigs Hqr Hsvd Heigs rs mpo num 1 sv rk ds h val y Ho HM (le_n 1) Hst E) as (x' & Ex' & Hn & Ix & Cx & Tx & Ed & _).
  rewrite Ex in Ex'. injection Ex' as <-. destruct (ranks_bound x) as (mr & Hmr & Rk). pose proof Ix as (Xc & Xm & _).
  rewrite (sandwich_mexp ds mpo x Ho Xc Xm) in Eq. injection Eq as <-. unfold norm2_of. rewrite <- (ip_inner_of ds) by assumption.
  eapply (dense_eig_best qr svd eigs Hqr Hsvd Heigs ds _ 1 mr h (fun e => herm_mat ds mpo Ho (HM e)) (le_n 1) Hmr (better w) num x y val); auto.
  intros a b f A B. eapply better_trans; eauto. unfold ip. apply cnonneg_msum. intros i _. replace (kconj (f i) * f i)%K with (f i * kconj (f i))%K by ring. apply cnonneg_sq.
Qed.
End C.
