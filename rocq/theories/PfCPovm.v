(** The local POVMs over the complex numbers. *)
From Coq Require Import Reals Lra Lia.
From Verif Require Export Cplx PfLocalPovm.
Open Scope nat_scope.

(** The numpy constants of localpovm.py as complex numbers: [1 / np.sqrt(n)], [1 / n], and
    [assert_almost_equal(x, 1.0)], which compares the real and imaginary parts to seven
    decimals. *)
Definition c_rsq (n : nat) : CS := toC (/ sqrt (INR n))%R.
Definition c_frac (n : nat) : CS := toC (/ INR n)%R.
Definition c_close1 (x : CS) : bool :=
  if Rlt_dec (Rabs (1 - Cre x)) (15 / 100000000) then if Rlt_dec (Rabs (0 - Cim x)) (15 / 100000000) then true else false else false.
Definition cx_povm := x_povm c_rsq.
Definition cy_povm := y_povm Ci c_rsq.
Definition cz_povm := z_povm (K:=CS).
Definition cpauli_povm := pauli_povm Ci c_rsq c_frac c_close1.

Lemma c_rsq_sq n : 0 < n -> (kn n * (c_rsq n * c_rsq n))%K = k1 (s:=CS).
Proof.
  intros H. unfold kn. rewrite kn_CS. unfold c_rsq. rewrite <- !toC_mul. rewrite <- toC_1. f_equal.
  assert (P : (0 < INR n)%R) by (apply lt_0_INR; exact H). assert (Q : sqrt (INR n) <> 0%R) by (apply Rgt_not_eq, sqrt_lt_R0; exact P).
  rewrite <- (sqrt_sqrt (INR n)) at 1 by lra. field. exact Q.
Qed.
Lemma c_rsq_conj n : kconj (c_rsq n) = c_rsq n.
Proof. apply toC_conj. Qed.
Lemma c_frac_1 n : 0 < n -> (kn n * c_frac n)%K = k1 (s:=CS).
Proof.
  intros H. unfold kn. rewrite kn_CS. unfold c_frac. rewrite <- toC_mul, <- toC_1. f_equal. apply Rinv_r. apply not_0_INR. lia.
Qed.
Lemma c_frac_nonneg n : cnonneg (c_frac n).
Proof.
  unfold c_frac. destruct n as [|n]; [|apply cnonneg_toC, Rlt_le, Rinv_0_lt_compat, lt_0_INR; lia].
  apply cnonneg_toC. cbn [INR]. rewrite Rinv_0. lra.
Qed.
Lemma c_close1_1 : c_close1 k1 = true.
Proof.
  unfold c_close1. cbn. replace (1 - 1)%R with 0%R by ring. replace (0 - 0)%R with 0%R by ring. rewrite Rabs_R0. destruct (Rlt_dec 0 (15 / 100000000)); [reflexivity|lra].
Qed.

(** ** What a POVM is *)
Definition trace_of (d : nat) (m : nat -> nat -> CS) : CS := bigsum d (fun a => m a a).
Definition mat_dot (d : nat) (m n : nat -> nat -> CS) : nat -> nat -> CS := fun a b => bigsum d (fun c => m a c * n c b)%K.
Definition povm_elem (p : povm CS) (k : nat) : nat -> nat -> CS := fun a b => get (elements p) [k; a; b].
(** Positive semidefinite *)
Definition psd (d : nat) (m : nat -> nat -> CS) : Prop := forall v : nat -> CS, cnonneg (bigsum d (fun a => bigsum d (fun b => kconj (v a) * m a b * v b)))%K.
Definition povm_complete (p : povm CS) (n d : nat) : Prop :=
  shp (elements p) = [n; d; d] /\
  (forall k, k < n -> psd d (povm_elem p k)) /\
  (forall a b, a < d -> b < d -> bigsum n (fun k => povm_elem p k a b) = delta a b).
(** Born probability *)
Definition born (d : nat) (p : povm CS) (rho : nat -> nat -> CS) (k : nat) : CS := trace_of d (mat_dot d (povm_elem p k) rho).

Lemma is_povm_complete p d fs : is_povm p d fs -> (forall f, In f fs -> psd d f) -> (forall a b, a < d -> b < d -> total fs a b = delta a b) ->
  povm_complete p (length fs) d.
Proof.
  intros (W & S & G) P T. split; [exact S|]. split.
  - intros k Hk v. unfold povm_elem. rewrite (bigsum_ext d _ (fun a => bigsum d (fun b => kconj (v a) * nth k fs zmat a b * v b))%K); [apply P, nth_In, Hk|].
    intros a Ha. apply bigsum_ext. intros b Hb. rewrite G by assumption. reflexivity.
  - intros a b Ha Hb. rewrite <- (T a b Ha Hb). unfold total. rewrite <- (bigsum_list (fun f : nat -> nat -> CS => f a b) fs zmat).
    apply bigsum_ext. intros k Hk. apply G; assumption.
Qed.
Lemma psd_proj d vec : psd d (proj_of vec).
Proof. intros v. pose proof (quad_proj d vec v) as E. unfold quad in E. rewrite E. apply cnonneg_sq. Qed.
Lemma psd_scaled d w f : cnonneg w -> psd d f -> psd d (scaled w f).
Proof. intros Hw Hf v. pose proof (quad_scaled d w f v) as E. unfold quad in E. rewrite E. apply cnonneg_mul; [exact Hw|apply Hf]. Qed.
Lemma ci_unit : (Ci * kconj Ci)%K = k1 (s:=CS).
Proof. apply cplx_eq; cbn; ring. Qed.
Lemma c1_unit : (k1 * kconj k1)%K = k1 (s:=CS).
Proof. apply cplx_eq; cbn; ring. Qed.

Theorem cx_complete d : 2 <= d -> exists p, cx_povm d = Ok p /\ povm_complete p (d * (d - 1)) d.
Proof.
  intros Hd. destruct (x_povm_ok c_rsq d Hd) as (p & E & _ & H). exists p. split; [exact E|]. rewrite <- (pair_mats_len c_rsq d k1).
  apply is_povm_complete; [exact H| |].
  - intros f Hf. destruct (pair_proj_form c_rsq d k1 f Hf) as (v & ->). apply psd_proj.
  - intros a b Ha Hb. apply (pair_total c_rsq c_rsq_sq c_rsq_conj d k1 a b Hd c1_unit Ha Hb).
Qed.
Theorem cy_complete d : 2 <= d -> exists p, cy_povm d = Ok p /\ povm_complete p (d * (d - 1)) d.
Proof.
  intros Hd. destruct (y_povm_ok Ci c_rsq d Hd) as (p & E & _ & H). exists p. split; [exact E|]. rewrite <- (pair_mats_len c_rsq d Ci).
  apply is_povm_complete; [exact H| |].
  - intros f Hf. destruct (pair_proj_form c_rsq d Ci f Hf) as (v & ->). apply psd_proj.
  - intros a b Ha Hb. apply (pair_total c_rsq c_rsq_sq c_rsq_conj d Ci a b Hd ci_unit Ha Hb).
Qed.
Theorem cz_complete d : 0 < d -> exists p, cz_povm d = Ok p /\ povm_complete p d d.
Proof.
  intros Hd. destruct (z_povm_ok (K:=CS) d Hd) as (p & E & _ & H). exists p. split; [exact E|].
  replace d with (length (z_mats (K:=CS) d)) at 1 by (unfold z_mats; rewrite map_length, seq_length; reflexivity).
  apply is_povm_complete; [exact H| |].
  - intros f Hf. destruct (z_proj_form d f Hf) as (v & ->). apply psd_proj.
  - intros a b Ha Hb. apply z_total; assumption.
Qed.
Definition pauli_count (d : nat) : nat := if Nat.eqb d 2 then 6 else 2 * (d * (d - 1)).
Lemma pauli_mats_len d : length (pauli_mats Ci c_rsq c_frac d) = pauli_count d.
Proof.
  unfold pauli_mats, pauli_ws, pauli_count, mix, pauli_fss. destruct (Nat.eqb_spec d 2) as [->|N]; cbn [length repeat combine map concat fst snd]; rewrite !app_length, !map_length, !pair_mats_len; cbn; lia.
Qed.
Theorem cpauli_complete d : 2 <= d -> exists p, cpauli_povm d = Ok p /\ info_complete p = true /\ povm_complete p (pauli_count d) d.
Proof.
  intros Hd. destruct (pauli_povm_ok Ci c_rsq c_frac c_close1 c_frac_1 c_close1_1 d Hd) as (p & E & I & H). exists p. split; [exact E|]. split; [exact I|].
  rewrite <- pauli_mats_len. apply is_povm_complete; [exact H| |].
  - intros f Hf. destruct (pauli_form Ci c_rsq c_frac d f Hf) as (v & ->). apply psd_scaled; [apply c_frac_nonneg|apply psd_proj].
  - intros a b Ha Hb. apply (pauli_total Ci c_rsq c_frac Ci_sq Ci_conj c_rsq_sq c_rsq_conj c_frac_1 d a b Hd Ha Hb).
Qed.
Theorem cpauli_ic d : 2 <= d -> exists p, cpauli_povm d = Ok p /\ info_complete p = true /\
  forall rho sigma, (forall k, k < pauli_count d -> born d p rho k = born d p sigma k) ->
    forall a b, a < d -> b < d -> rho a b = sigma a b.
Proof.
  intros Hd. destruct (pauli_povm_ok Ci c_rsq c_frac c_close1 c_frac_1 c_close1_1 d Hd) as (p & E & I & (W & S & G)). exists p. split; [exact E|]. split; [exact I|].
  rewrite <- pauli_mats_len. intros rho sigma H a b Ha Hb.
  assert (Z : forall a b, a < d -> b < d -> (rho a b - sigma a b)%K = k0 (s:=CS)).
  { apply (pauli_ic Ci c_rsq c_frac Ci_sq Ci_conj c_rsq_sq c_rsq_conj c_frac_1 c_no2 d (fun a b => rho a b - sigma a b)%K Hd).
    intros f Hf. apply In_nth with (d := zmat) in Hf. destruct Hf as (k & Hk & <-). specialize (H k Hk). unfold born, trace_of, mat_dot in H.
    assert (Q : forall x, bigsum d (fun a => bigsum d (fun c => povm_elem p k a c * x c a))%K = trdot d (nth k (pauli_mats Ci c_rsq c_frac d) zmat) x).
    { intros x. unfold trdot. apply bigsum_ext. intros i Hi. apply bigsum_ext. intros j Hj. unfold povm_elem. rewrite G by assumption. reflexivity. }
    rewrite !Q in H. unfold trdot in *. transitivity (bigsum d (fun a => bigsum d (fun b => nth k (pauli_mats Ci c_rsq c_frac d) zmat a b * rho b a)) - bigsum d (fun a => bigsum d (fun b => nth k (pauli_mats Ci c_rsq c_frac d) zmat a b * sigma b a)))%K.
    - rewrite <- bigsum_sub. apply bigsum_ext. intros i _. rewrite <- bigsum_sub. apply bigsum_ext. intros j _. apply cplx_eq; cbn; ring.
    - rewrite H. apply cplx_eq; cbn; ring. }
  specialize (Z a b Ha Hb). pose proof (f_equal Cre Z) as Z1. pose proof (f_equal Cim Z) as Z2. cbn in Z1, Z2. apply cplx_eq; unfold Cre, Cim; lra.
Qed.

(** ** probability_map and concat *)
(** [np.dot(pmap, rho.ravel())] *)
Definition raveled (d : nat) (rho : nat -> nat -> CS) (q : nat) : CS := rho (q / d) (q mod d).
Theorem pmap_born p n d : ndwf (elements p) -> shp (elements p) = [n; d; d] -> 0 < n ->
  exists m, povm_pmap p = Ok m /\ shp m = [n; d * d] /\
    forall rho k, k < n -> bigsum (d * d) (fun q => get m [k; q] * raveled d rho q)%K = born d p rho k.
Proof.
  intros W S Hn. set (fs := map (fun k => povm_elem p k) (seq 0 n)).
  assert (Lf : length fs = n) by (unfold fs; rewrite map_length, seq_length; reflexivity).
  assert (Nf : forall k, k < n -> nth k fs zmat = povm_elem p k) by (intros k Hk; unfold fs; rewrite (nth_indep _ _ (povm_elem p 0)) by (rewrite map_length, seq_length; exact Hk); rewrite (map_nth (fun k => povm_elem p k)), seq_nth by exact Hk; reflexivity).
  assert (H : is_povm p d fs) by (split; [exact W|]; rewrite Lf; split; [exact S|]; intros; rewrite Nf by assumption; reflexivity).
  destruct (povm_pmap_ok p d fs H) as (m & E & _ & Sm & G); [lia|]. rewrite Lf in Sm, G. exists m. split; [exact E|]. split; [exact Sm|].
  intros rho k Hk. rewrite bigsum_prod. unfold born, trace_of, mat_dot. rewrite bigsum_swap. apply bigsum_ext. intros i Hi. apply bigsum_ext. intros j Hj.
  rewrite G, Nf by assumption. unfold raveled. rewrite Nat.div_add_l, Nat.div_small, Nat.add_0_r by lia. rewrite (Nat.add_comm (_ * d)), Nat.mod_add, Nat.mod_small by lia. reflexivity.
Qed.
(** [concat] of complete POVMs *)
Definition wsum (ws : list R) : R := fold_right Rplus 0%R ws.
Lemma lsum_toC ws : lsum (map toC ws) = toC (wsum ws).
Proof. induction ws as [|w ws IH]; [reflexivity|]. cbn [map]. rewrite lsum_cons, IH, <- toC_add. reflexivity. Qed.
Lemma complete_is_povm p n d : ndwf (elements p) -> shp (elements p) = [n; d; d] -> is_povm p d (map (fun k => povm_elem p k) (seq 0 n)).
Proof.
  intros W S. assert (Lf : length (map (fun k => povm_elem p k) (seq 0 n)) = n) by (rewrite map_length, seq_length; reflexivity).
  split; [exact W|]. rewrite Lf. split; [exact S|]. intros k a b Hk Ha Hb.
  rewrite (nth_indep _ _ (povm_elem p 0)) by (rewrite Lf; exact Hk). rewrite (map_nth (fun k => povm_elem p k)), seq_nth by exact Hk. reflexivity.
Qed.
Lemma scaled_psd_in d ws fss f : Forall (fun w => cnonneg w) ws -> Forall (Forall (psd d)) fss -> In f (mix ws fss) -> psd d f.
Proof.
  intros Hw Hf H. unfold mix in H. apply in_concat in H. destruct H as (l & H1 & H2). apply in_map_iff in H1. destruct H1 as ((fs & w) & <- & H1). cbn [fst snd] in H2.
  apply in_map_iff in H2. destruct H2 as (g & <- & Hg). rewrite Forall_forall in Hw, Hf. apply psd_scaled; [apply Hw; exact (in_combine_r _ _ _ _ H1)|].
  pose proof (Hf _ (in_combine_l _ _ _ _ H1)) as Q. rewrite Forall_forall in Q. apply Q. exact Hg.
Qed.
Lemma mix_len ws (fss : list (mats (K:=CS))) : length ws = length fss -> length (mix ws fss) = list_sum (map (@length _) fss).
Proof.
  revert ws. induction fss as [|fs fss IH]; intros [|w ws] L; try discriminate; [reflexivity|]. unfold mix in *. cbn [combine map concat fst snd list_sum fold_right]. rewrite app_length, map_length. injection L as L. rewrite (IH ws L). reflexivity.
Qed.
Theorem concat_complete ps ns ws d ic : Forall2 (fun p n => ndwf (elements p) /\ povm_complete p n d) ps ns -> length ws = length ps ->
  0 < list_sum ns -> wsum ws = 1%R -> Forall (fun w => 0 <= w)%R ws ->
  exists p, povm_concat c_close1 ps (map toC ws) ic = Ok p /\ info_complete p = ic /\ povm_complete p (list_sum ns) d /\
    forall i q k w, nth_error ps i = Some q -> nth_error ws i = Some w -> k < nth i ns 0 ->
      forall a b, a < d -> b < d -> povm_elem p (list_sum (firstn i ns) + k) a b = (toC w * povm_elem q k a b)%K.
Proof.
  intros H Lw Hn Hs Hp. set (fss := map (fun pn : povm CS * nat => map (fun k => povm_elem (fst pn) k) (seq 0 (snd pn))) (combine ps ns)).
  assert (Lps : length ps = length ns) by (clear - H; induction H; cbn; congruence).
  assert (F : Forall2 (fun p fs => is_povm p d fs) ps fss).
  { unfold fss. clear - H. induction H as [|p n ps ns (W & S & _) H IH]; cbn [combine map]; [constructor|]. apply Forall2_cons; [apply complete_is_povm; assumption|exact IH]. }
  assert (Lfs : map (@length _) fss = ns) by (unfold fss; clear - Lps; revert ns Lps; induction ps as [|p ps IH]; intros [|n ns] L; try discriminate; [reflexivity|]; cbn [combine map fst snd]; rewrite map_length, seq_length, IH by (cbn in L; lia); reflexivity).
  assert (Lws : length (map toC ws) = length fss) by (rewrite map_length; unfold fss; rewrite map_length, combine_length; lia).
  assert (Lm : length (mix (map toC ws) fss) = list_sum ns) by (rewrite mix_len by exact Lws; rewrite Lfs; reflexivity).
  destruct (povm_concat_ok c_close1 ps (map toC ws) ic d fss F) as (p & E & I & Hp'); [rewrite map_length; exact Lw|rewrite lsum_toC, Hs; exact c_close1_1|intros C; rewrite C in Lm; cbn in Lm; lia|].
  exists p. split; [exact E|]. split; [exact I|]. split.
  - rewrite <- Lm. apply is_povm_complete; [exact Hp'| |].
    + intros f Hf. apply (scaled_psd_in d (map toC ws) fss); [| |exact Hf].
      * rewrite Forall_forall in *. intros w Hw. apply in_map_iff in Hw. destruct Hw as (r & <- & Hr). apply cnonneg_toC. apply Hp. exact Hr.
      * unfold fss. clear - H. induction H as [|p n ps ns (W & S & P & _) H IH]; cbn [combine map fst snd]; [constructor|]. constructor; [|exact IH]. rewrite Forall_forall. intros f Hf. apply in_map_iff in Hf. destruct Hf as (k & <- & Hk). apply in_seq in Hk. apply P. lia.
    + intros a b Ha Hb. rewrite (total_mix _ _ a b (delta a b) Lws).
      * rewrite lsum_toC, Hs. unfold toC. change (kmul (k1 (s:=CS)) (delta a b) = delta a b). apply (Rmul_1_l (k_ring CS)).
      * unfold fss. clear - H Ha Hb. induction H as [|p n ps ns (W & S & _ & T) H IH]; cbn [combine map fst snd]; [constructor|]. constructor; [|exact IH].
        unfold total. rewrite map_map, lsum_seq. apply T; assumption.
  - intros i q k w Hq Hw Hk a b Ha Hb. destruct Hp' as (_ & _ & G).
    assert (X : forall (fss : list (mats (K:=CS))) (vs : list CS) i v fs k, length vs = length fss -> nth_error fss i = Some fs -> nth_error vs i = Some v -> k < length fs ->
       list_sum (map (@length _) (firstn i fss)) + k < length (mix vs fss) /\ nth (list_sum (map (@length _) (firstn i fss)) + k) (mix vs fss) zmat = scaled v (nth k fs zmat)).
    { clear. induction fss as [|gs fss IH]; intros [|u vs] i v fs k L Hf Hv Hk; try discriminate; [destruct i; discriminate|]. unfold mix in *. cbn [combine map concat fst snd]. destruct i as [|i].
      - cbn in Hf, Hv. injection Hf as ->. injection Hv as ->. cbn [firstn map list_sum fold_right Nat.add]. rewrite app_length, map_length. split; [lia|]. rewrite app_nth1 by (rewrite map_length; exact Hk).
        rewrite (nth_indep _ _ (scaled v zmat)) by (rewrite map_length; exact Hk). apply map_nth.
      - cbn [nth_error] in Hf, Hv. cbn [firstn map list_sum fold_right]. injection L as L. destruct (IH vs i v fs k L Hf Hv Hk) as [A B]. rewrite app_length, map_length. unfold list_sum in *. split; [rewrite <- Nat.add_assoc; apply Nat.add_lt_mono_l; exact A|].
        rewrite app_nth2 by (rewrite map_length, <- Nat.add_assoc; apply Nat.le_add_r). rewrite map_length. rewrite <- B. f_equal. rewrite <- Nat.add_assoc, Nat.add_comm. apply Nat.add_sub. }
    assert (Hi : i < length ps) by (apply nth_error_Some; congruence).
    assert (Hfs : nth_error fss i = Some (map (fun k => povm_elem q k) (seq 0 (nth i ns 0)))).
    { unfold fss. clear - Hq Lps Hi. revert ps ns Lps Hq Hi. induction i as [|i IH]; intros [|p ps] [|n ns] L Hq Hi; try discriminate; cbn in *; [injection Hq as ->; reflexivity|]. apply IH; [lia|exact Hq|lia]. }
    destruct (X fss (map toC ws) i (toC w) _ k Lws Hfs) as [A B]; [rewrite nth_error_map, Hw; reflexivity|rewrite map_length, seq_length; exact Hk|].
    assert (Lq : map (@length (nat -> nat -> CS)) (firstn i fss) = firstn i ns) by (rewrite <- Lfs, firstn_map; reflexivity).
    unfold mats in A, B. rewrite Lq in A. rewrite Lq in B. unfold povm_elem at 1. rewrite G by assumption. rewrite B. unfold scaled. f_equal.
    rewrite (nth_indep _ _ (povm_elem q 0)) by (rewrite map_length, seq_length; exact Hk). rewrite (map_nth (fun k => povm_elem q k)), seq_nth by exact Hk. reflexivity.
Qed.
(** The qubit POVMs measure the eigenvectors of the Pauli matrices. *)
Definition half : R := (/ 2)%R.
Lemma half_sq : (/ sqrt (1 + 1) * / sqrt (1 + 1) = / 2)%R.
Proof. assert (Q : sqrt (1 + 1) <> 0%R) by (apply Rgt_not_eq, sqrt_lt_R0; lra). rewrite <- Rinv_mult. rewrite sqrt_sqrt by lra. f_equal. Qed.
Definition x_qubit (k a b : nat) : CS := toC (if Nat.eqb a b then half else if Nat.eqb k 0 then half else - half)%R.
Definition y_qubit (k a b : nat) : CS :=
  if Nat.eqb a b then toC half else (0%R, (if Nat.eqb a 0 then if Nat.eqb k 0 then - half else half else if Nat.eqb k 0 then half else - half)%R).
Definition z_qubit (k a b : nat) : CS := toC (if Nat.eqb a b then if Nat.eqb a k then 1 else 0 else 0)%R.
Lemma lt2 k : k < 2 -> k = 0 \/ k = 1. Proof. lia. Qed.
Lemma q2_half : q2 c_rsq 2 = toC half.
Proof. unfold q2, c_rsq. rewrite <- toC_mul. f_equal. exact half_sq. Qed.
Lemma pair_qubit c k a b : k < 2 -> a < 2 -> b < 2 -> nth k (pair_mats c_rsq 2 c) zmat a b =
  (toC half * (pv 0 1 (if Nat.eqb k 0 then c else (- c)%K) a * kconj (pv 0 1 (if Nat.eqb k 0 then c else (- c)%K) b)))%K.
Proof.
  intros Hk Ha Hb. rewrite pair_mats_eq. change (upairs 2) with [(0, 1)]. cbn [flat_map app fst snd]. rewrite <- q2_half.
  destruct (lt2 _ Hk) as [-> | ->]; cbn [nth Nat.eqb]; apply (proj_pair c_rsq c_rsq_conj 2 0 1); assumption.
Qed.
Ltac qubit := match goal with Hk : ?k < 2, Ha : ?a < 2, Hb : ?b < 2 |- _ => destruct (lt2 _ Hk) as [-> | ->], (lt2 _ Ha) as [-> | ->], (lt2 _ Hb) as [-> | ->] end;
  apply cplx_eq; cbn -[IZR half]; ring.
Theorem x_qubit_spec : exists p, cx_povm 2 = Ok p /\ forall k a b, k < 2 -> a < 2 -> b < 2 -> povm_elem p k a b = x_qubit k a b.
Proof.
  destruct (x_povm_ok c_rsq 2 ltac:(lia)) as (p & E & _ & _ & _ & G). exists p. split; [exact E|]. rewrite pair_mats_len in G. intros k a b Hk Ha Hb.
  unfold povm_elem. rewrite G, pair_qubit by assumption. clear G. qubit.
Qed.
Theorem y_qubit_spec : exists p, cy_povm 2 = Ok p /\ forall k a b, k < 2 -> a < 2 -> b < 2 -> povm_elem p k a b = y_qubit k a b.
Proof.
  destruct (y_povm_ok Ci c_rsq 2 ltac:(lia)) as (p & E & _ & _ & _ & G). exists p. split; [exact E|]. rewrite pair_mats_len in G. intros k a b Hk Ha Hb.
  unfold povm_elem. rewrite G, pair_qubit by assumption. clear G. qubit.
Qed.
Theorem z_qubit_spec : exists p, cz_povm 2 = Ok p /\ forall k a b, k < 2 -> a < 2 -> b < 2 -> povm_elem p k a b = z_qubit k a b.
Proof.
  destruct (z_povm_ok (K:=CS) 2 ltac:(lia)) as (p & E & _ & _ & _ & G). exists p. split; [exact E|]. intros k a b Hk Ha Hb.
  unfold povm_elem. rewrite G by assumption. clear G. qubit.
Qed.
