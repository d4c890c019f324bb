(** Packing of samples, empirical probabilities, values and variances of linear functions. *)
From Coq Require Import Reals Lra Permutation.
From Verif Require Export Estim PfSample.
Open Scope nat_scope.

(** ** Packing *)
Definition rowZ (js : list nat) : list Z := map Z.of_nat js.
Lemma rowZ_to js : map Z.to_nat (rowZ js) = js.
Proof. unfold rowZ. rewrite map_map. rewrite <- (map_id js) at 2. apply map_ext. intros a. apply Nat2Z.id. Qed.
Lemma rowZ_inj a b : rowZ a = rowZ b -> a = b.
Proof. intros H. rewrite <- (rowZ_to a), <- (rowZ_to b), H. reflexivity. Qed.
Lemma zin_nat j d : zin (Z.of_nat j) d = Nat.ltb j d.
Proof. unfold zin. destruct (Nat.ltb_spec j d), (Z.leb_spec 0 (Z.of_nat j)), (Z.ltb_spec (Z.of_nat j) (Z.of_nat d)); cbn; lia || reflexivity. Qed.
Lemma zin_spec z d : zin z d = true <-> exists j, z = Z.of_nat j /\ j < d.
Proof.
  unfold zin. rewrite andb_true_iff, Z.leb_le, Z.ltb_lt. split; [intros [A B]; exists (Z.to_nat z); lia|intros (j & -> & H); lia].
Qed.
Lemma row_valid ds : forall row, Nat.eqb (length row) (length ds) && forallb (fun p => zin (fst p) (snd p)) (combine row ds) = true <-> exists js, row = rowZ js /\ inr js ds.
Proof.
  induction ds as [|d ds IH]; intros [|z row]; cbn [length combine forallb].
  - split; [intros _; exists []; split; [reflexivity|constructor]|reflexivity].
  - split; [discriminate|intros (js & E & H); inversion H; subst; discriminate].
  - split; [discriminate|intros (js & E & H); inversion H; subst; discriminate].
  - cbn [Nat.eqb fst snd]. specialize (IH row). rewrite andb_true_iff in *. rewrite andb_true_iff, zin_spec. split.
    + intros (A & (j & -> & B) & C). destruct (proj1 IH (conj A C)) as (js & -> & D). exists (j :: js). split; [reflexivity|apply inr_cons; assumption].
    + intros (js & E & H). apply inr_cons_inv in H. destruct H as (j & js' & -> & B & D). injection E as -> ->.
      destruct (proj2 IH (ex_intro _ js' (conj eq_refl D))) as [A C]. split; [exact A|]. split; [exists j; split; [reflexivity|exact B]|exact C].
Qed.
Lemma ravel_row_ok ds js : inr js ds -> ravel_row ds (rowZ js) = Ok (Z.of_nat (ravel ds js)).
Proof. intros H. unfold ravel_row. rewrite (proj2 (row_valid ds (rowZ js)) (ex_intro _ js (conj eq_refl H))). cbn [praise_unless]. rewrite rowZ_to. reflexivity. Qed.
Lemma ravel_row_err ds row : ~ (exists js, row = rowZ js /\ inr js ds) -> ravel_row ds row = Err ValueError.
Proof. intros H. unfold ravel_row. destruct (_ && _) eqn:E; [|reflexivity]. apply row_valid in E. contradiction. Qed.
Lemma unravel_row_ok ds k : k < size ds -> unravel_row ds (Z.of_nat k) = Ok (rowZ (unravel ds k)).
Proof. intros H. unfold unravel_row. rewrite zin_nat, (proj2 (Nat.ltb_lt _ _) H). cbn [praise_unless]. rewrite Nat2Z.id. reflexivity. Qed.
Lemma unravel_row_err ds z : ~ (exists k, z = Z.of_nat k /\ k < size ds) -> unravel_row ds z = Err ValueError.
Proof. intros H. unfold unravel_row. destruct (zin z (size ds)) eqn:E; [|reflexivity]. apply zin_spec in E. contradiction. Qed.

Lemma mapM_ok' {A B : Type} (f : A -> res B) (g : A -> B) l : Forall (fun a => f a = Ok (g a)) l -> mapM f l = Ok (map g l).
Proof. induction 1 as [|a l H _ IH]; [reflexivity|]. cbn [mapM map]. rewrite H, IH. reflexivity. Qed.
Lemma mapM_err1 {A B : Type} (f : A -> res B) e l : Forall (fun a => (exists b, f a = Ok b) \/ f a = Err e) l -> Exists (fun a => f a = Err e) l -> mapM f l = Err e.
Proof.
  induction 1 as [|a l H Hl IH]; intros Ex; [inversion Ex|]. cbn [mapM]. destruct H as [[b E]|E]; rewrite E; [|reflexivity]. cbn [bind].
  apply Exists_cons in Ex. destruct Ex as [Ex|Ex]; [congruence|]. rewrite IH by exact Ex. reflexivity.
Qed.

(** Samples that can occur: rows of outcomes, or their numbers in row-major order *)
Definition rows_ok (ds : list nat) (rows : list (list nat)) : Prop := Forall (fun js => inr js ds) rows.
Definition S2n (ds : list nat) (rows : list (list nat)) : smp := S2 (length ds) (map rowZ rows).
Definition S1n (ks : list nat) : smp := S1 (map Z.of_nat ks).
Definition fits63 (ds : list nat) : Prop := ds <> [] /\ (Z.of_nat (size ds) <= 2 ^ 63 - 1)%Z.
Lemma dims_ok_fits ds : fits63 ds -> dims_ok ds = true.
Proof. intros [H1 H2]. unfold dims_ok. destruct ds; [congruence|]. apply Z.leb_le. exact H2. Qed.

Section Pack.
Context {K : StarRing}.
Variable x : ltens K.
Let ds := nsoutdims x.
Lemma pack_spec rows dt : fits63 ds -> rows_ok ds rows ->
  match dt with None => True | Some (lo, hi) => rows <> [] /\ Forall (fun js => (lo <= Z.of_nat (ravel ds js) <= hi)%Z) rows end ->
  pack_samples x (S2n ds rows) dt = Ok (map (fun js => Z.of_nat (ravel ds js)) rows).
Proof.
  intros F H D. unfold pack_samples, S2n. fold ds. rewrite Nat.eqb_refl. cbn [passert]. rewrite (dims_ok_fits _ F). cbn [praise_unless].
  assert (E : mapM (ravel_row ds) (map rowZ rows) = Ok (map (fun js => Z.of_nat (ravel ds js)) rows)).
  { clear D. induction H as [|js rows Hj H IH]; [reflexivity|]. cbn [map mapM]. rewrite ravel_row_ok by exact Hj. rewrite IH. reflexivity. }
  rewrite E. cbn [bind]. destruct dt as [[lo hi]|]; [|reflexivity]. destruct D as [N D].
  destruct rows as [|r rows]; [congruence|]. cbn [map]. change (Z.of_nat (ravel ds r) :: map (fun js => Z.of_nat (ravel ds js)) rows) with (map (fun js => Z.of_nat (ravel ds js)) (r :: rows)).
  rewrite (proj2 (forallb_forall _ _)) by (intros k Hk; apply in_map_iff in Hk; destruct Hk as (js & <- & Hj); apply Z.leb_le; apply (proj1 (Forall_forall _ _) D js Hj)).
  cbn [passert]. rewrite (proj2 (forallb_forall _ _)) by (intros k Hk; apply in_map_iff in Hk; destruct Hk as (js & <- & Hj); apply Z.leb_le; apply (proj1 (Forall_forall _ _) D js Hj)). reflexivity.
Qed.
Lemma outdims_ns d : In d ds -> In d (outdims x).
Proof. unfold ds, nsoutdims. intros H. apply filter_In in H. apply H. Qed.
Lemma unpack_spec ks : fits63 ds -> Forall (fun d => d <= 255) (outdims x) -> Forall (fun k => k < size ds) ks ->
  unpack_samples x (S1n ks) = Ok (S2n ds (map (unravel ds) ks)).
Proof.
  intros F O H. unfold unpack_samples, S1n. rewrite (proj2 (forallb_forall _ _)) by (intros d Hd; apply Nat.leb_le; exact (proj1 (Forall_forall _ _) O d Hd)).
  cbn [passert]. fold ds. rewrite (dims_ok_fits _ F). cbn [praise_unless].
  assert (E : mapM (unravel_row ds) (map Z.of_nat ks) = Ok (map (fun k => rowZ (unravel ds k)) ks)).
  { induction H as [|k ks Hk H IH]; [reflexivity|]. cbn [map mapM]. rewrite unravel_row_ok by exact Hk. rewrite IH. reflexivity. }
  rewrite E. cbn [bind]. unfold S2n. f_equal. f_equal. rewrite !map_map. apply map_ext_in. intros k Hk. unfold rowZ. rewrite map_map. apply map_ext_in. intros j Hj.
  apply Z.mod_small. split; [lia|]. assert (V := unravel_inr ds k (proj1 (Forall_forall _ _) H k Hk)).
  assert (exists d, In d ds /\ j < d) as (d & Hd & Hjd).
  { clear - V Hj. unfold inr in V. induction V as [|a b l l' L V IH]; [destruct Hj|]. destruct Hj as [->|Hj]; [exists b; split; [left; reflexivity|exact L]|]. destruct (IH Hj) as (d & A & B). exists d. split; [right; exact A|exact B]. }
  assert (d <= 255) by (apply (proj1 (Forall_forall _ _) O); apply outdims_ns; exact Hd). lia.
Qed.
Theorem unpack_pack rows dt : fits63 ds -> Forall (fun d => d <= 255) (outdims x) -> rows_ok ds rows ->
  match dt with None => True | Some (lo, hi) => rows <> [] /\ Forall (fun js => (lo <= Z.of_nat (ravel ds js) <= hi)%Z) rows end ->
  exists ks, pack_samples x (S2n ds rows) dt = Ok ks /\ unpack_samples x (S1 ks) = Ok (S2n ds rows) /\ Forall (fun k => (0 <= k < Z.of_nat (size ds))%Z) ks.
Proof.
  intros F O H D. rewrite pack_spec by assumption. eexists. split; [reflexivity|].
  replace (map (fun js => Z.of_nat (ravel ds js)) rows) with (map Z.of_nat (map (ravel ds) rows)) by apply map_map.
  assert (B : Forall (fun k => k < size ds) (map (ravel ds) rows)).
  { apply Forall_map. eapply Forall_impl; [|exact H]. intros js Hj. apply ravel_lt. exact Hj. }
  split.
  - fold (S1n (map (ravel ds) rows)). rewrite unpack_spec by assumption. f_equal. f_equal. rewrite map_map. rewrite <- (map_id rows) at 2. apply map_ext_in.
    intros js Hj. apply unravel_ravel. exact (proj1 (Forall_forall _ _) H js Hj).
  - apply Forall_map. eapply Forall_impl; [|exact B]. intros k Hk. cbv beta. pose proof (Nat2Z.inj_lt k (size ds)). split; [apply Nat2Z.is_nonneg|tauto].
Qed.
Theorem pack_unpack ks : fits63 ds -> Forall (fun d => d <= 255) (outdims x) -> Forall (fun k => k < size ds) ks ->
  exists rows, unpack_samples x (S1n ks) = Ok (S2n ds rows) /\ rows_ok ds rows /\ pack_samples x (S2n ds rows) None = Ok (map Z.of_nat ks).
Proof.
  intros F O H. exists (map (unravel ds) ks). split; [apply unpack_spec; assumption|].
  assert (R : rows_ok ds (map (unravel ds) ks)) by (apply Forall_map; eapply Forall_impl; [|exact H]; intros k Hk; apply unravel_inr; exact Hk).
  split; [exact R|]. rewrite pack_spec by (auto; exact R). f_equal. rewrite map_map. apply map_ext_in. intros k Hk. rewrite ravel_unravel; [reflexivity|]. exact (proj1 (Forall_forall _ _) H k Hk).
Qed.
(** Outcomes out of range *)
Theorem pack_err ncol rows dt : fits63 ds -> ncol = length ds -> Exists (fun row => ~ exists js, row = rowZ js /\ inr js ds) rows -> pack_samples x (S2 ncol rows) dt = Err ValueError.
Proof.
  intros F -> H. unfold pack_samples. fold ds. rewrite Nat.eqb_refl, (dims_ok_fits _ F). cbn [passert praise_unless].
  rewrite (mapM_err1 _ ValueError); [reflexivity| |].
  - apply Forall_forall. intros row _. unfold ravel_row. destruct (_ && _); [left; eexists; reflexivity|right; reflexivity].
  - eapply Exists_impl; [|exact H]. intros row Hr. apply ravel_row_err. exact Hr.
Qed.
Theorem unpack_err zs : fits63 ds -> Forall (fun d => d <= 255) (outdims x) -> Exists (fun z => ~ exists k, z = Z.of_nat k /\ k < size ds) zs -> unpack_samples x (S1 zs) = Err ValueError.
Proof.
  intros F O H. unfold unpack_samples. rewrite (proj2 (forallb_forall _ _)) by (intros d Hd; apply Nat.leb_le; exact (proj1 (Forall_forall _ _) O d Hd)).
  fold ds. rewrite (dims_ok_fits _ F). cbn [passert praise_unless].
  rewrite (mapM_err1 _ ValueError); [reflexivity| |].
  - apply Forall_forall. intros z _. unfold unravel_row. destruct (zin _ _); [left; eexists; reflexivity|right; reflexivity].
  - eapply Exists_impl; [|exact H]. intros z Hz. apply unravel_row_err. exact Hz.
Qed.
Theorem pack_shape_err s dt : (forall ncol rows, s = S2 ncol rows -> ncol <> length ds) -> pack_samples x s dt = Err AssertionError.
Proof. intros H. destruct s as [zs|ncol rows]; [reflexivity|]. unfold pack_samples. fold ds. rewrite (proj2 (Nat.eqb_neq _ _) (H _ _ eq_refl)). reflexivity. Qed.
Theorem pack_dtype_err rows lo hi : fits63 ds -> rows_ok ds rows -> Exists (fun js => ~ (lo <= Z.of_nat (ravel ds js) <= hi)%Z) rows ->
  pack_samples x (S2n ds rows) (Some (lo, hi)) = Err AssertionError.
Proof.
  intros F H D. pose proof (pack_spec rows None F H I) as E. unfold pack_samples, S2n in *. fold ds in E |- *. rewrite Nat.eqb_refl in *. cbn [passert] in *. rewrite (dims_ok_fits _ F) in *. cbn [praise_unless] in *.
  destruct (mapM (ravel_row ds) (map rowZ rows)) as [ks|]; [|discriminate]. cbn [bind] in *. injection E as ->.
  destruct rows as [|r rows]; [inversion D|]. set (l := r :: rows) in *. cbn [map]. change (match map (fun js => Z.of_nat (ravel ds js)) l with [] => _ | _ => _ end) with
    (passert (forallb (fun k => (lo <=? k)%Z) (map (fun js => Z.of_nat (ravel ds js)) l)) (passert (forallb (fun k => (k <=? hi)%Z) (map (fun js => Z.of_nat (ravel ds js)) l)) (Ok (map (fun js => Z.of_nat (ravel ds js)) l)))).
  destruct (forallb (fun k => (lo <=? k)%Z) _) eqn:E1; [|reflexivity]. cbn [passert]. destruct (forallb (fun k => (k <=? hi)%Z) _) eqn:E2; [|reflexivity]. exfalso.
  rewrite forallb_forall in E1, E2. apply Exists_exists in D. destruct D as (js & Hj & D). apply D.
  assert (I1 : In (Z.of_nat (ravel ds js)) (map (fun js => Z.of_nat (ravel ds js)) l)) by (apply in_map_iff; exists js; auto).
  specialize (E1 _ I1). specialize (E2 _ I1). apply Z.leb_le in E1, E2. lia.
Qed.
End Pack.

(** ** Empirical probabilities *)
Lemma count_map_inj {A B : Type} (dA : forall a b : A, {a = b} + {a <> b}) (dB : forall a b : B, {a = b} + {a <> b}) (f : A -> B) l a :
  (forall b, In b l -> f b = f a -> b = a) -> count_occ dB (map f l) (f a) = count_occ dA l a.
Proof.
  induction l as [|b l IH]; intros H; [reflexivity|]. cbn [map count_occ]. rewrite IH by (intros c Hc; apply H; right; exact Hc).
  destruct (dB (f b) (f a)) as [E|N], (dA b a) as [E'|N']; try reflexivity; [exfalso; apply N'; apply H; [left; reflexivity|exact E]|subst; congruence].
Qed.
Lemma count_sum (l : list nat) n : Forall (fun k => k < n) l -> list_sum (map (fun k => count_occ Nat.eq_dec l k) (seq 0 n)) = length l.
Proof.
  induction 1 as [|a l Ha H IH]; cbn [count_occ length].
  - induction (seq 0 n) as [|k s IHs]; [reflexivity|]. cbn. exact IHs.
  - rewrite <- IH. clear IH H.
    assert (G : forall s, (forall k, In k s -> k < n) -> NoDup s -> list_sum (map (fun k => if Nat.eq_dec a k then S (count_occ Nat.eq_dec l k) else count_occ Nat.eq_dec l k) s) = (if in_dec Nat.eq_dec a s then 1 else 0) + list_sum (map (fun k => count_occ Nat.eq_dec l k) s)).
    { induction s as [|k s IHs]; intros B N; [reflexivity|]. inversion N as [|k' s' N1 N2]; subst. cbn [map list_sum fold_right]. fold (list_sum (map (fun k => if Nat.eq_dec a k then S (count_occ Nat.eq_dec l k) else count_occ Nat.eq_dec l k) s)). fold (list_sum (map (fun k => count_occ Nat.eq_dec l k) s)).
      rewrite IHs by (try exact N2; intros; apply B; right; assumption). destruct (in_dec Nat.eq_dec a s) as [I|I], (Nat.eq_dec a k) as [E|E], (in_dec Nat.eq_dec a (k :: s)) as [J|J]; subst; try lia; try contradiction; cbn in J; intuition congruence. }
    rewrite G; [|intros k Hk; apply in_seq in Hk; lia|apply seq_NoDup]. destruct (in_dec Nat.eq_dec a (seq 0 n)) as [I|I]; [lia|]. exfalso. apply I. apply in_seq. lia.
Qed.
Lemma max_bound n (l : list nat) : Forall (fun k => k < n) l -> fold_right Nat.max n (map (fun z => S (Z.to_nat z)) (map Z.of_nat l)) = n.
Proof. induction 1 as [|a l Ha H IH]; [reflexivity|]. cbn [map fold_right]. rewrite IH, Nat2Z.id. lia. Qed.
Lemma bincount_spec l n : Forall (fun k => k < n) l -> bincount (map Z.of_nat l) n = Ok (map (fun k => count_occ Nat.eq_dec l k) (seq 0 n)).
Proof.
  intros H. unfold bincount. rewrite (proj2 (forallb_forall _ _)) by (intros z Hz; apply in_map_iff in Hz; destruct Hz as (k & <- & _); apply Z.leb_le; lia).
  cbn [praise_unless]. rewrite max_bound by exact H. f_equal. apply map_ext. intros k. apply count_map_inj. intros b _ E. lia.
Qed.

Definition freq (n c : nat) : flt := if Nat.eqb n 0 then NaN else Fin (INR c / INR n).
Lemma fdiv_count c n : c <= n -> fdiv (Fin (INR c)) (Fin (INR n)) = freq n c.
Proof.
  intros H. unfold fdiv, freq. destruct (Nat.eqb_spec n 0) as [->|N].
  - assert (c = 0) by lia. subst. cbn [INR]. destruct (Req_EM_T 0 0); [|congruence]. unfold finf. destruct (Rlt_dec 0 0); [lra|reflexivity].
  - destruct (Req_EM_T (INR n) 0) as [E|_]; [|reflexivity]. exfalso. apply N. apply INR_eq. rewrite E. reflexivity.
Qed.
Section EstPmf.
Context {K : StarRing}.
Variable x : ltens K.
Let ds := nsoutdims x.
(** The entries of [est_pmf] for the numbers [ks] of the outcomes *)
Lemma est_pmf_packed ks b : ds <> [] -> Forall (fun k => k < size ds) ks ->
  est_pmf x (S1n ks) b = Ok (ds, map (fun k => let c := count_occ Nat.eq_dec ks k in if b then freq (length ks) c else Fin (INR c)) (seq 0 (size ds))).
Proof.
  intros N H. unfold est_pmf, S1n. fold ds. cbn [bind nsamples]. replace (match ds with [] => false | _ => true end) with true by (destruct ds; congruence). cbn [praise_unless].
  rewrite bincount_spec by exact H. cbn [bind]. rewrite map_length, seq_length, Nat.eqb_refl. cbn [passert]. rewrite count_sum by exact H. rewrite map_length, Nat.eqb_refl. cbn [passert].
  f_equal. f_equal. rewrite map_map. apply map_ext. intros k. destruct b; [|reflexivity]. apply fdiv_count. apply count_occ_bound.
Qed.
Lemma est_pmf_rows rows b : fits63 ds -> rows_ok ds rows -> est_pmf x (S2n ds rows) b = est_pmf x (S1n (map (ravel ds) rows)) b.
Proof.
  intros F H. unfold est_pmf, S2n. pose proof (pack_spec x rows None F H I) as E. unfold S2n in E. fold ds in E. rewrite E. cbn [bind]. unfold S1n. cbn [nsamples]. rewrite !map_length. rewrite map_map. reflexivity.
Qed.
(** Entry for a row of outcomes *)
Definition fentry (a : list nat * list flt) (js : list nat) : flt := nth (ravel (fst a) js) (snd a) NaN.
Definition row_dec : forall a b : list nat, {a = b} + {a <> b} := list_eq_dec Nat.eq_dec.
Theorem est_pmf_spec rows b : fits63 ds -> rows_ok ds rows -> exists a, est_pmf x (S2n ds rows) b = Ok a /\ fst a = ds /\ length (snd a) = size ds /\
  forall js, inr js ds -> fentry a js = let c := count_occ row_dec rows js in if b then freq (length rows) c else Fin (INR c).
Proof.
  intros F H. rewrite est_pmf_rows by assumption. rewrite est_pmf_packed.
  - eexists. split; [reflexivity|]. cbn [fst snd]. split; [reflexivity|]. split; [rewrite map_length, seq_length; reflexivity|].
    intros js Hj. unfold fentry. cbn [fst snd]. assert (L := ravel_lt _ _ Hj).
    rewrite (nth_indep _ _ ((fun k => let c := count_occ Nat.eq_dec (map (ravel ds) rows) k in if b then freq (length (map (ravel ds) rows)) c else Fin (INR c)) 0)) by (rewrite map_length, seq_length; exact L).
    rewrite (map_nth (fun k => let c := count_occ Nat.eq_dec (map (ravel ds) rows) k in if b then freq (length (map (ravel ds) rows)) c else Fin (INR c))). rewrite seq_nth by exact L. cbn [plus]. rewrite map_length.
    rewrite (count_map_inj row_dec); [reflexivity|]. intros r Hr E. assert (Hri := proj1 (Forall_forall _ _) H r Hr). cbn beta in Hri.
    rewrite <- (unravel_ravel ds r), <- (unravel_ravel ds js), E by assumption. reflexivity.
  - apply F.
  - apply Forall_map. eapply Forall_impl; [|exact H]. intros js Hj. apply ravel_lt. exact Hj.
Qed.
(** The entries as a distribution *)
Lemma INR_sum l : INR (list_sum l) = rsum (map INR l).
Proof. induction l as [|a l IH]; [reflexivity|]. change (list_sum (a :: l)) with (a + list_sum l). rewrite plus_INR, IH. reflexivity. Qed.
Theorem est_pmf_dist rows : fits63 ds -> rows_ok ds rows -> rows <> [] -> exists q, est_pmf x (S2n ds rows) true = Ok (ds, map Fin q) /\
  length q = size ds /\ Forall (fun v => (0 <= v)%R) q /\ rsum q = 1%R.
Proof.
  intros F H N. rewrite est_pmf_rows by assumption.
  assert (V : Forall (fun k => k < size ds) (map (ravel ds) rows)) by (apply Forall_map; eapply Forall_impl; [|exact H]; intros js Hj; apply ravel_lt; exact Hj).
  rewrite est_pmf_packed by (try apply F; exact V).
  set (l := map (ravel ds) rows). assert (Ll : length l <> 0) by (unfold l; rewrite map_length; destruct rows; [congruence|discriminate]).
  assert (Lp : (0 < INR (length l))%R) by (apply lt_0_INR; lia).
  exists (map (fun k => INR (count_occ Nat.eq_dec l k) / INR (length l))%R (seq 0 (size ds))). split.
  - f_equal. f_equal. rewrite map_map. apply map_ext. intros k. cbv zeta. unfold freq. rewrite (proj2 (Nat.eqb_neq _ _) Ll). reflexivity.
  - split; [rewrite map_length, seq_length; reflexivity|]. split.
    + apply Forall_map. apply Forall_forall. intros k _. apply Rmult_le_pos; [apply pos_INR|]. left. apply Rinv_0_lt_compat. exact Lp.
    + rewrite <- (map_map (fun k => INR (count_occ Nat.eq_dec l k)) (fun v => v / INR (length l))%R). rewrite rsum_div. rewrite <- map_map with (f := fun k => count_occ Nat.eq_dec l k), <- INR_sum.
      rewrite count_sum by exact V. field. lra.
Qed.
Lemma count_perm (l l' : list nat) k : Permutation l l' -> count_occ Nat.eq_dec l k = count_occ Nat.eq_dec l' k.
Proof. intros P. apply (Permutation_count_occ Nat.eq_dec). exact P. Qed.
Theorem est_pmf_perm rows rows' b : fits63 ds -> rows_ok ds rows -> Permutation rows rows' -> est_pmf x (S2n ds rows) b = est_pmf x (S2n ds rows') b.
Proof.
  intros F H P. assert (H' : rows_ok ds rows') by (eapply Permutation_Forall; [exact P|exact H]).
  rewrite !est_pmf_rows by assumption. assert (V : forall r, rows_ok ds r -> Forall (fun k => k < size ds) (map (ravel ds) r)).
  { intros r Hr. apply Forall_map. eapply Forall_impl; [|exact Hr]. intros js Hj. apply ravel_lt. exact Hj. }
  rewrite !est_pmf_packed by (try apply F; apply V; assumption). f_equal. f_equal. apply map_ext. intros k. cbv zeta.
  rewrite (count_perm _ _ k (Permutation_map (ravel ds) P)). rewrite !map_length, (Permutation_length P). reflexivity.
Qed.
(** Errors *)
Theorem est_pmf_err_range zs b : ds <> [] -> Exists (fun z => ~ exists k, z = Z.of_nat k /\ k < size ds) zs ->
  est_pmf x (S1 zs) b = Err (if forallb (fun z => 0 <=? z)%Z zs then AssertionError else ValueError).
Proof.
  intros N H. unfold est_pmf. fold ds. cbn [bind nsamples]. replace (match ds with [] => false | _ => true end) with true by (destruct ds; congruence). cbn [praise_unless].
  unfold bincount. destruct (forallb (fun z => 0 <=? z)%Z zs) eqn:E; [|reflexivity]. cbn [praise_unless bind]. rewrite map_length, seq_length.
  rewrite (proj2 (Nat.eqb_neq _ _)); [reflexivity|]. rewrite forallb_forall in E.
  apply Exists_exists in H. destruct H as (z & Hz & Hb). specialize (E z Hz). apply Z.leb_le in E.
  assert (size ds <= Z.to_nat z) by (destruct (Nat.le_gt_cases (size ds) (Z.to_nat z)); [assumption|exfalso; apply Hb; exists (Z.to_nat z); lia]).
  assert (G : forall l, In z l -> S (Z.to_nat z) <= fold_right Nat.max (size ds) (map (fun z => S (Z.to_nat z)) l)).
  { induction l as [|a l IH]; [intros []|]. intros [->|Hi]; cbn [map fold_right]; [lia|specialize (IH Hi); lia]. }
  specialize (G zs Hz). lia.
Qed.
Theorem est_pmf_err_rows ncol rows b : fits63 ds -> ncol = length ds -> Exists (fun row => ~ exists js, row = rowZ js /\ inr js ds) rows -> est_pmf x (S2 ncol rows) b = Err ValueError.
Proof. intros F L H. unfold est_pmf. rewrite (pack_err x ncol rows None F L H). reflexivity. Qed.
Theorem est_pmf_no_out zs b : ds = [] -> est_pmf x (S1 zs) b = Err TypeError.
Proof. intros E. unfold est_pmf. fold ds. rewrite E. reflexivity. Qed.
End EstPmf.
