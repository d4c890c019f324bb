(** [MPPovm.est_pmf_from] (mppovm.py 1091-1157): when the estimate is right. *)
From Coq Require Import Reals Lra.
From Verif Require Export PfEstFrom.
Open Scope nat_scope.
Add Ring Cr : (k_ring CS).

(** ** Sums over outcomes with given kept part *)
Section Gen.
Context {K : StarRing}.
Add Ring Kr : (k_ring K).
Lemma summed_ind ns : forall os ls (f : list nat -> K), length ns = length os -> inr ls (merge_dims ns os) ->
  msum os (fun l => if row_dec (proj ns l) ls then f l else k0) = summed ns os ls f.
Proof.
  induction ns as [|n ns IH]; intros [|o os] ls f L H; try discriminate.
  - inversion H; subst. cbn [msum proj zip2 summed]. destruct (row_dec [] []); [reflexivity|congruence].
  - cbn [merge_dims zip2] in H. apply inr_cons_inv in H. destruct H as (k & ls' & -> & Hk & Hls). cbn [msum summed]. fold (merge_dims ns os) in Hls.
    destruct (1 <? n) eqn:En.
    + rewrite (bigsum_ext _ _ (fun j => delta k j * summed ns os ls' (fun l => f (j :: l)))%K).
      * rewrite (bigsum_delta_l o k (fun j => summed ns os ls' (fun l => f (j :: l)))) by exact Hk. reflexivity.
      * intros j Hj. cbn [proj zip2]. rewrite En. fold (proj ns). unfold delta. destruct (Nat.eqb_spec k j) as [<-|N].
        -- transitivity (summed ns os ls' (fun l => f (k :: l))); [|ring]. rewrite <- IH by (auto; assumption). apply msum_ext. intros l _. change (zip2 (fun n0 l0 => if 1 <? n0 then l0 else 0) ns l) with (proj ns l).
           destruct (row_dec (k :: proj ns l) (k :: ls')), (row_dec (proj ns l) ls'); try reflexivity; congruence.
        -- rewrite msum_zero; [ring|]. intros l _. destruct (row_dec _ _); [congruence|reflexivity].
    + assert (k = 0) by lia. subst k. apply bigsum_ext. intros j Hj. cbn [proj zip2]. rewrite En. rewrite <- IH by (auto; assumption). apply msum_ext. intros l _. change (zip2 (fun n0 l0 => if 1 <? n0 then l0 else 0) ns l) with (proj ns l).
      destruct (row_dec (0 :: proj ns l) (0 :: ls')), (row_dec (proj ns l) ls'); try reflexivity; congruence.
Qed.
(** The trace of a product with a density matrix *)
Definition trw (hs : list nat) (A rho : mat K) : K := msum hs (fun is => msum hs (fun js => A is js * rho js is))%K.
Lemma trw_ext hs A B rho : (forall is js, inr is hs -> inr js hs -> A is js = B is js) -> trw hs A rho = trw hs B rho.
Proof. intros H. apply msum_ext. intros is Hi. apply msum_ext. intros js Hj. rewrite H by assumption. reflexivity. Qed.
Lemma trw_scale hs c A rho : trw hs (fun is js => c * A is js)%K rho = (c * trw hs A rho)%K.
Proof. unfold trw. rewrite <- msum_mul_l. apply msum_ext. intros is _. rewrite <- msum_mul_l. apply msum_ext. intros js _. ring. Qed.
Lemma trw_msum hs ds (F : list nat -> mat K) rho : trw hs (fun is js => msum ds (fun l => F l is js)) rho = msum ds (fun l => trw hs (F l) rho).
Proof.
  unfold trw. rewrite (msum_ext hs _ (fun is => msum ds (fun l => msum hs (fun js => F l is js * rho js is)))%K).
  - apply msum_swap.
  - intros is _. rewrite <- msum_swap. apply msum_ext. intros js _. rewrite <- msum_mul_r. reflexivity.
Qed.
Lemma trw_summed hs ns os ls (F : list nat -> mat K) rho : length ns = length os -> inr ls (merge_dims ns os) ->
  trw hs (fun is js => summed ns os ls (fun l => F l is js)) rho = summed ns os ls (fun l => trw hs (F l) rho).
Proof.
  intros L H. rewrite <- summed_ind by assumption. transitivity (trw hs (fun is js => msum os (fun l => (fun l is js => if row_dec (proj ns l) ls then F l is js else k0) l is js)) rho).
  - apply trw_ext. intros is js _ _. rewrite <- summed_ind by assumption. reflexivity.
  - rewrite trw_msum. apply msum_ext. intros l _. destruct (row_dec (proj ns l) ls); [reflexivity|]. unfold trw. apply msum_zero. intros is _. apply msum_zero. intros js _. ring.
Qed.
End Gen.

(** ** The estimate as a mean over the samples *)
Section Val.
Variables (hs ns os : list nat) (x o : ltens CS).
Let ms := merge_dims ns os.
(** The contribution of one sample to the estimate of the probability of [ks] *)
Definition share (ks ls : list nat) : R := if mt hs ns os x o ks (proj ns ls) then pfac hs ns os x o ks (proj ns ls) else 0%R.
(** How many elements of the second POVM match *)
Definition n_matches (ks : list nat) : R := rmsum ms (fun ls => if mt hs ns os x o ks ls then 1 else 0)%R.
Lemma count_weight (c : list nat -> R) l : Forall (fun ls => inr ls ms) l -> rmsum ms (fun ls => c ls * INR (count_occ row_dec l ls))%R = rsum (map c l).
Proof.
  induction 1 as [|a l Ha H IH].
  - cbn [map]. rewrite (rmsum_ext _ _ (fun _ => 0 * 0)%R) by (intros; cbn; lra). rewrite (rmsum_scale ms 0%R (fun _ => 0%R)). unfold rsum. cbn. lra.
  - cbn [map]. rewrite rsum_cons, <- IH. rewrite (rmsum_ext _ _ (fun ls => (if row_dec ls a then c ls else 0) + c ls * INR (count_occ row_dec l ls))%R).
    + rewrite rmsum_add. f_equal. rewrite (rmsum_single ms a _ Ha). 2:{ intros i _ N. destruct (row_dec i a); [congruence|reflexivity]. }
      destruct (row_dec a a); [reflexivity|congruence].
    + intros ls _. cbn [count_occ]. destruct (row_dec a ls) as [->|N].
      * destruct (row_dec ls ls); [|congruence]. rewrite S_INR. lra.
      * destruct (row_dec ls a); [congruence|]. lra.
Qed.
Lemma est_val_mean lss ks : length ns = length os -> Forall (fun ls => inr ls os) lss -> est_val hs ns os x o lss ks = (rsum (map (share ks) lss) / INR (length lss))%R.
Proof.
  intros L H. unfold est_val. fold ms.
  rewrite (rmsum_ext _ _ (fun ls => / INR (length lss) * ((if mt hs ns os x o ks ls then pfac hs ns os x o ks ls else 0) * INR (nproj ns lss ls)))%R).
  - rewrite rmsum_scale. unfold nproj. rewrite (count_weight (fun ls => if mt hs ns os x o ks ls then pfac hs ns os x o ks ls else 0%R)).
    + rewrite map_map. unfold share, Rdiv. ring.
    + apply Forall_forall. intros a Ha. apply in_map_iff in Ha. destruct Ha as (b & <- & Hb). rewrite Forall_forall in H. apply proj_inr; [exact L|apply H; exact Hb].
  - intros ls _. destruct (mt hs ns os x o ks ls); unfold Rdiv; ring.
Qed.
End Val.

(** ** The mean of the estimate *)
Lemma cnonneg_0 : cnonneg k0.
Proof. split; cbn; lra. Qed.
Lemma mpsd_trw hs A : mpsd hs A <-> forall v : list nat -> CS, cnonneg (trw hs A (fun js is => v js * kconj (v is))%K).
Proof.
  assert (E : forall v : list nat -> CS, msum hs (fun is => msum hs (fun js => kconj (v is) * A is js * v js))%K = trw hs A (fun js is => v js * kconj (v is))%K).
  { intros v. unfold trw. apply msum_ext. intros is _. apply msum_ext. intros js _. ring. }
  unfold mpsd. split; intros H v; specialize (H v); [rewrite <- E|rewrite E]; exact H.
Qed.
Lemma summed_psd hs ns os (o : ltens CS) ls : length ns = length os -> inr ls (merge_dims ns os) -> (forall l, inr l os -> mpsd hs (elem_of o l)) -> mpsd hs (summed_elem ns os o ls).
Proof.
  intros L H HP. apply mpsd_trw. intros v. unfold summed_elem. rewrite (trw_summed hs ns os ls (elem_of o)) by assumption. rewrite <- summed_ind by assumption. apply cnonneg_msum. intros l Hl.
  destruct (row_dec (proj ns l) ls); [|apply cnonneg_0]. apply mpsd_trw. apply HP. exact Hl.
Qed.
Lemma psd_elems_mpsd (x : ltens CS) ns hs : povm_ok x ns hs -> psd_elems x -> forall ks, inr ks ns -> mpsd hs (elem_of x ks).
Proof. intros Hx P ks Hk v. destruct (povm_dims _ _ _ Hx) as (D1 & D2 & _). unfold psd_elems in P. rewrite D1, D2 in P. exact (P ks Hk v). Qed.
Lemma mborn_trw (x : ltens CS) ns hs rho ks : povm_ok x ns hs -> mborn x rho ks = trw hs (elem_of x ks) rho.
Proof. intros Hx. destruct (povm_dims _ _ _ Hx) as (_ & D2 & _). unfold mborn. rewrite D2. reflexivity. Qed.
(** No false matches: matching elements are proportional. *)
Definition separated (hs ns os : list nat) (x o : ltens CS) : Prop := forall ks ls, inr ks ns -> inr ls (merge_dims ns os) -> mt hs ns os x o ks ls = true ->
  exists z, forall is js, inr is hs -> inr js hs -> elem_of x ks is js = (z * summed_elem ns os o ls is js)%K.
Section Mean.
Variables (x o : ltens CS) (ns os hs : list nat) (rho : mat CS) (P Q : list nat -> R).
Hypothesis Hx : povm_ok x ns hs.
Hypothesis Ho : povm_ok o os hs.
Hypothesis NZ : nonzero_elems hs ns os x o.
Hypothesis Px : psd_elems x.
Hypothesis Po : psd_elems o.
Hypothesis Sep : separated hs ns os x o.
Hypothesis BP : born_prob x rho P.
Hypothesis BQ : born_prob o rho Q.
Let ms := merge_dims ns os.
Let L : length ns = length os.
Proof. destruct Hx as (_ & _ & L1 & _), Ho as (_ & _ & L2 & _). lia. Qed.
(** The probability of the kept part of an outcome *)
Lemma kept_prob ls : inr ls ms -> trw hs (summed_elem ns os o ls) rho = toC (rmsum os (fun l => if row_dec (proj ns l) ls then Q (bigi os l) else 0%R)).
Proof.
  intros H. unfold summed_elem. rewrite (trw_summed hs ns os ls (elem_of o)) by assumption. rewrite <- summed_ind by assumption. rewrite <- toC_rmsum. apply msum_ext. intros l Hl.
  destruct (row_dec (proj ns l) ls); [|reflexivity]. rewrite <- (mborn_trw o os hs rho l Ho). destruct (povm_dims _ _ _ Ho) as (D1 & _). unfold born_prob in BQ. rewrite D1 in BQ. apply BQ. exact Hl.
Qed.
Lemma matched_prob ks ls : inr ks ns -> inr ls ms -> mt hs ns os x o ks ls = true ->
  (pfac hs ns os x o ks ls * rmsum os (fun l => if row_dec (proj ns l) ls then Q (bigi os l) else 0) = P (bigi ns ks))%R.
Proof.
  intros Hk Hl Hm. apply PfHS.toC_inj. rewrite toC_mul, <- kept_prob by exact Hl. rewrite <- trw_scale. destruct (povm_dims _ _ _ Hx) as (D1 & _). unfold born_prob in BP. rewrite D1 in BP. rewrite <- BP by exact Hk.
  rewrite (mborn_trw x ns hs rho ks Hx). symmetry. apply trw_ext. destruct NZ as [N1 N2]. apply prefactor_exact; [| |apply N1; exact Hk|apply N2; exact Hl|apply Sep; assumption].
  - apply mpsd_gram. apply (psd_elems_mpsd x ns hs Hx Px). exact Hk.
  - apply mpsd_gram. apply summed_psd; [exact L|exact Hl|]. exact (psd_elems_mpsd o os hs Ho Po).
Qed.
(** Every matching element contributes the probability once. *)
Theorem share_mean ks : inr ks ns -> rmsum os (fun l => Q (bigi os l) * share hs ns os x o ks l)%R = (n_matches hs ns os x o ks * P (bigi ns ks))%R.
Proof.
  intros Hk. transitivity (rmsum os (fun l => rmsum ms (fun ls => if row_dec (proj ns l) ls then Q (bigi os l) * (if mt hs ns os x o ks ls then pfac hs ns os x o ks ls else 0) else 0)))%R.
  - apply rmsum_ext. intros l Hl. rewrite (rmsum_single ms (proj ns l)).
    + destruct (row_dec (proj ns l) (proj ns l)); [reflexivity|congruence].
    + apply proj_inr; [exact L|exact Hl].
    + intros i _ N. destruct (row_dec (proj ns l) i); [congruence|reflexivity].
  - unfold rmsum at 1 2. rewrite (msum_swap (K:=RS)). change (rmsum ms (fun ls => rmsum os (fun l => if row_dec (proj ns l) ls then Q (bigi os l) * (if mt hs ns os x o ks ls then pfac hs ns os x o ks ls else 0) else 0)) = (n_matches hs ns os x o ks * P (bigi ns ks)))%R.
    unfold n_matches. fold ms. rewrite Rmult_comm, <- rmsum_scale. apply rmsum_ext. intros ls Hls. destruct (mt hs ns os x o ks ls) eqn:Em.
    + rewrite <- (matched_prob ks ls Hk Hls Em), Rmult_1_r, <- rmsum_scale. apply rmsum_ext. intros l _. destruct (row_dec (proj ns l) ls); ring.
    + rewrite Rmult_0_r. rewrite (rmsum_ext _ _ (fun _ => 0 * 0)%R) by (intros l _; destruct (row_dec (proj ns l) ls); ring). rewrite (rmsum_scale os 0%R (fun _ => 0%R)). ring.
Qed.
(** Frequencies equal to the probabilities *)
Definition exact_freqs (lss : list (list nat)) : Prop := forall l, inr l os -> (INR (count_occ row_dec lss l) / INR (length lss) = Q (bigi os l))%R.
Theorem est_val_exact lss ks : inr ks ns -> lss <> [] -> Forall (fun ls => inr ls os) lss -> exact_freqs lss -> est_val hs ns os x o lss ks = (n_matches hs ns os x o ks * P (bigi ns ks))%R.
Proof.
  intros Hk Hn Hl Hf. rewrite est_val_mean by (assumption || exact L). rewrite <- share_mean by exact Hk.
  assert (W : rmsum os (fun ls => share hs ns os x o ks ls * INR (count_occ row_dec lss ls))%R = rsum (map (share hs ns os x o ks) lss)).
  { clear -Hl. induction Hl as [|a l Ha H IH].
    - cbn [map]. rewrite (rmsum_ext _ _ (fun _ => 0 * 0)%R) by (intros; cbn; lra). rewrite (rmsum_scale os 0%R (fun _ => 0%R)). unfold rsum. cbn. lra.
    - cbn [map]. rewrite rsum_cons, <- IH. rewrite (rmsum_ext _ _ (fun ls => (if row_dec ls a then share hs ns os x o ks ls else 0) + share hs ns os x o ks ls * INR (count_occ row_dec l ls))%R).
      + rewrite rmsum_add. f_equal. rewrite (rmsum_single os a _ Ha). 2:{ intros i _ N. destruct (row_dec i a); [congruence|reflexivity]. } destruct (row_dec a a); [reflexivity|congruence].
      + intros ls _. cbn [count_occ]. destruct (row_dec a ls) as [->|N]; [destruct (row_dec ls ls); [|congruence]; rewrite S_INR; lra|destruct (row_dec ls a); [congruence|lra]]. }
  rewrite <- W. unfold Rdiv. rewrite Rmult_comm, <- rmsum_scale. apply rmsum_ext. intros l Hl'. rewrite <- (Hf l Hl'). unfold Rdiv. ring.
Qed.
(** The mean over all data sets of [n] independent samples *)
Theorem est_val_unbiased n ks : inr ks ns -> 0 < n -> sums_to_id o -> unit_trace hs rho ->
  iid os (fun l => Q (bigi os l)) n (fun lss => est_val hs ns os x o lss ks) = (n_matches hs ns os x o ks * P (bigi ns ks))%R.
Proof.
  intros Hk Hn So Tr. rewrite <- share_mean by exact Hk.
  assert (Q1 : rmsum os (fun l => Q (bigi os l)) = 1%R).
  { apply PfHS.toC_inj. rewrite <- toC_rmsum. destruct (povm_dims _ _ _ Ho) as (D1 & D2 & _). unfold born_prob in BQ. rewrite D1 in BQ.
    rewrite (msum_ext os _ (fun l => trw hs (elem_of o l) rho)) by (intros l Hl; rewrite <- (mborn_trw o os hs rho l Ho); symmetry; apply BQ; exact Hl).
    rewrite <- trw_msum. unfold sums_to_id in So. rewrite D1, D2 in So. rewrite (trw_ext hs _ (fun is js => list_delta is js) rho) by exact So. unfold trw. rewrite toC_1, <- Tr. apply msum_ext. intros is Hi. apply (msum_list_delta hs is (fun js => rho js is)). exact Hi. }
  set (h := fun z => share hs ns os x o ks (map Z.to_nat z)).
  rewrite (iid_ext _ _ _ _ (smean h)).
  - rewrite smean_unbiased by (assumption || exact Q1). unfold mean, h. apply rmsum_ext. intros l _. rewrite rowZ_to. reflexivity.
  - intros lss _ Hl. rewrite est_val_mean by (assumption || exact L). unfold smean, tot, h. do 2 f_equal. apply map_ext. intros l. rewrite rowZ_to. reflexivity.
Qed.
End Mean.

(** ** Success of [est_pmf_from] *)
Lemma zeros_inr hs : Forall (fun d => 0 < d) hs -> inr (map (fun _ => 0) hs) hs.
Proof. induction 1 as [|d hs Hd H IH]; cbn [map]; [constructor|apply inr_cons; assumption]. Qed.
Lemma ident_diag is : ident is is = k1.
Proof. unfold ident. destruct (list_eq_dec Nat.eq_dec is is); [reflexivity|congruence]. Qed.
Lemma ident_delta is js : ident is js = list_delta is js.
Proof. unfold ident, list_delta. destruct (list_eq_dec Nat.eq_dec is js) as [->|N]; [rewrite list_eqb_refl; reflexivity|]. destruct (list_eqb is js) eqn:E; [apply list_eqb_eq in E; contradiction|reflexivity]. Qed.
Definition given_list (hs ns os : list nat) (x o : ltens CS) : list bool := map (is_given hs ns os x o) (outcomes ns).
Lemma given_nth hs ns os (x o : ltens CS) ks : inr ks ns -> nth (ravel ns ks) (given_list hs ns os x o) false = is_given hs ns os x o ks.
Proof.
  intros H. pose proof (ravel_lt _ _ H) as Hlt. unfold given_list, outcomes. rewrite map_map. rewrite (nth_indep _ false (is_given hs ns os x o (unravel ns 0))) by (rewrite map_length, seq_length; exact Hlt).
  rewrite (map_nth (fun i => is_given hs ns os x o (unravel ns i))), seq_nth by exact Hlt. cbn [plus]. rewrite unravel_ravel by exact H. reflexivity.
Qed.
Lemma given_list_all hs ns os (x o : ltens CS) : forallb (fun b => b) (given_list hs ns os x o) = true -> forall ks, inr ks ns -> is_given hs ns os x o ks = true.
Proof. intros H ks Hk. unfold given_list in H. rewrite forallb_map in H. rewrite forallb_forall in H. apply H. apply outcomes_inr. exact Hk. Qed.
(** The elements matched by some element of the second POVM add to [f] times the identity. *)
Definition covers (hs ns os : list nat) (x o : ltens CS) (f : R) : Prop := forall is js, inr is hs -> inr js hs ->
  msum ns (fun ks => if is_given hs ns os x o ks then entry x (triples ks is js) else k0) = (toC f * list_delta is js)%K.
Lemma covers_given hs ns os (x o : ltens CS) f : covers hs ns os x o f -> forall is js, inr is hs -> inr js hs -> given_sum ns x (given_list hs ns os x o) is js = (toC f * ident is js)%K.
Proof.
  intros H is js Hi Hj. rewrite ident_delta, <- (H is js Hi Hj). apply msum_ext. intros ks Hk. rewrite given_nth by exact Hk. unfold elem_of. destruct (is_given hs ns os x o ks); ring.
Qed.
Lemma cover_some hs ns os (x o : ltens CS) f : Forall (fun d => 0 < d) hs -> covers hs ns os x o f -> f <> 0%R -> existsb (fun b => b) (given_list hs ns os x o) = true.
Proof.
  intros Ph H Hf. destruct (existsb _ _) eqn:E; [reflexivity|]. exfalso. apply Hf. apply PfHS.toC_inj. pose proof (zeros_inr hs Ph) as Z. specialize (H _ _ Z Z). rewrite <- ident_delta, ident_diag in H.
  rewrite toC_0. transitivity (toC f * k1)%K; [ring|]. rewrite <- H. apply msum_zero. intros ks Hk. destruct (is_given hs ns os x o ks) eqn:G; [|reflexivity].
  assert (T : existsb (fun b : bool => b) (given_list hs ns os x o) = true); [|congruence]. apply existsb_exists. exists true. split; [|reflexivity]. unfold given_list. rewrite <- G. apply in_map. apply outcomes_inr. exact Hk.
Qed.
Lemma diag_nonneg hs A is : gram_rho hs A -> inr is hs -> cnonneg (A is is).
Proof. intros (cs & v & H) Hi. rewrite H by assumption. apply cnonneg_msum. intros c _. apply cnonneg_sq. Qed.
Lemma cover_le hs ns os (x o : ltens CS) f : povm_ok x ns hs -> psd_elems x -> sums_to_id x -> covers hs ns os x o f ->
  (f <= 1)%R /\ (forallb (fun b => b) (given_list hs ns os x o) = true -> f = 1%R).
Proof.
  intros Hx Px Sx H. destruct (povm_pos _ _ _ Hx) as (_ & Ph). destruct (povm_dims _ _ _ Hx) as (D1 & D2 & _). pose proof (zeros_inr hs Ph) as Z. set (z := map (fun _ => 0) hs) in *.
  pose proof (H _ _ Z Z) as E. unfold sums_to_id in Sx. rewrite D1, D2 in Sx. pose proof (Sx _ _ Z Z) as E1. rewrite <- ident_delta, ident_diag in E, E1. split.
  - assert (N : cnonneg (msum ns (fun ks => if is_given hs ns os x o ks then k0 else entry x (triples ks z z)))).
    { apply cnonneg_msum. intros ks Hk. destruct (is_given hs ns os x o ks); [apply cnonneg_0|]. apply (diag_nonneg hs (elem_of x ks)); [|exact Z]. apply mpsd_gram. apply (psd_elems_mpsd x ns hs Hx Px). exact Hk. }
    assert (S : (toC f + msum ns (fun ks => if is_given hs ns os x o ks then k0 else entry x (triples ks z z)))%K = k1).
    { rewrite <- E1. transitivity (toC f * k1 + msum ns (fun ks => if is_given hs ns os x o ks then k0 else entry x (triples ks z z)))%K; [ring|]. rewrite <- E, <- msum_add. apply msum_ext. intros ks _. destruct (is_given hs ns os x o ks); ring. }
    clear -N S. match type of N with cnonneg ?t => revert N S; generalize t end. intros w [_ N] S. apply (f_equal Cre) in S. change (f + Cre w = 1)%R in S. lra.
  - intros A. apply PfHS.toC_inj. rewrite toC_1. transitivity (toC f * k1)%K; [ring|]. rewrite <- E, <- E1. apply msum_ext. intros ks Hk. rewrite (given_list_all _ _ _ _ _ A ks Hk). reflexivity.
Qed.
Section QR.
Variable qr : nd CS -> res (nd CS * nd CS).
Hypothesis Hqr : qr_sound qr.
(** Elements that cover a multiple of the identity: only the sum of the estimates is checked. *)
Theorem est_pmf_from_cover (x o : ltens CS) ns os hs lss f eps : povm_ok x ns hs -> povm_ok o os hs -> nonzero_elems hs ns os x o -> bigd ns <> [] ->
  psd_elems x -> sums_to_id x -> covers hs ns os x o f -> (0 < f)%R -> (0 < eps)%R -> Forall (fun ls => inr ls os) lss -> lss <> [] ->
  (est_pmf_from qr x o (S2n (bigd os) (map (bigi os) lss)) eps = Err LinAlgError /\ qr_fails qr) \/
  est_pmf_from qr x o (S2n (bigd os) (map (bigi os) lss)) eps =
    if Rleb (Rabs (rmsum ns (est_val hs ns os x o lss) - f)) eps then Ok (est_array hs ns os x o lss, n_used hs ns os x o lss) else Err AssertionError.
Proof.
  intros Hx Ho NZ Hb Px Sx Hc Hf He Hr Hl. destruct (povm_pos _ _ _ Hx) as (_ & Ph). rewrite (est_pmf_from_eq qr x o ns os hs lss eps) by assumption. cbv zeta. fold (given_list hs ns os x o).
  rewrite (cover_some hs ns os x o f) by (assumption || lra). cbn [negb].
  destruct (elemsum_spec qr Hqr x ns hs (given_list hs ns os x o) eps Hx Hb) as [[E F]|E].
  - unfold given_list, outcomes. rewrite !map_length, seq_length. reflexivity.
  - apply (cover_some hs ns os x o f); [assumption..|lra].
  - left. rewrite E. split; [reflexivity|exact F].
  - right. rewrite E. destruct (cover_le hs ns os x o f Hx Px Sx Hc) as [C1 C2].
    rewrite (elemsum_fraction hs _ f _ eps Ph (Rlt_le _ _ He) Hf (covers_given _ _ _ _ _ _ Hc)); [reflexivity|].
    destruct (forallb (fun b => b) (given_list hs ns os x o)) eqn:A; cbn [negb].
    + rewrite C2 by reflexivity. rewrite Rminus_diag_eq, Rabs_R0 by reflexivity. lra.
    + lra.
Qed.

(** Each element of the first POVM matches at most one element of the second one. *)
Definition single_match (hs ns os : list nat) (x o : ltens CS) : Prop := forall ks ls ls', inr ks ns -> inr ls (merge_dims ns os) -> inr ls' (merge_dims ns os) ->
  mt hs ns os x o ks ls = true -> mt hs ns os x o ks ls' = true -> ls = ls'.
Lemma single_count hs ns os (x o : ltens CS) ks : single_match hs ns os x o -> inr ks ns -> n_matches hs ns os x o ks = (if is_given hs ns os x o ks then 1 else 0)%R.
Proof.
  intros H Hk. unfold n_matches. destruct (is_given hs ns os x o ks) eqn:G.
  - apply existsb_exists in G. destruct G as (ls & Hl & Hm). apply (proj1 (outcomes_inr _ _)) in Hl. rewrite (rmsum_single _ ls _ Hl); [rewrite Hm; reflexivity|].
    intros i Hi N. destruct (mt hs ns os x o ks i) eqn:E; [|reflexivity]. exfalso. apply N. apply (H ks); assumption.
  - rewrite (rmsum_ext _ _ (fun _ => 0 * 0)%R); [rewrite (rmsum_scale _ 0%R (fun _ => 0%R)); ring|]. intros ls Hl. destruct (mt hs ns os x o ks ls) eqn:E; [|ring].
    assert (T : is_given hs ns os x o ks = true); [|congruence]. apply existsb_exists. exists ls. split; [apply outcomes_inr; exact Hl|exact E].
Qed.
Lemma cover_prob hs ns os (x o : ltens CS) rho P f : povm_ok x ns hs -> covers hs ns os x o f -> born_prob x rho P -> unit_trace hs rho ->
  rmsum ns (fun ks => if is_given hs ns os x o ks then P (bigi ns ks) else 0%R) = f.
Proof.
  intros Hx Hc HP Tr. destruct (povm_dims _ _ _ Hx) as (D1 & D2 & _). unfold born_prob in HP. rewrite D1 in HP. apply PfHS.toC_inj. rewrite <- toC_rmsum.
  transitivity (msum ns (fun ks => trw hs ((fun ks is js => if is_given hs ns os x o ks then entry x (triples ks is js) else k0) ks) rho)).
  - apply msum_ext. intros ks Hk. destruct (is_given hs ns os x o ks).
    + rewrite <- HP by exact Hk. apply (mborn_trw x ns hs rho ks Hx).
    + symmetry. rewrite toC_0. unfold trw. apply msum_zero. intros is _. apply msum_zero. intros js _. ring.
  - rewrite <- trw_msum. rewrite (trw_ext hs _ (fun is js => toC f * list_delta is js)%K rho) by exact Hc. rewrite trw_scale. unfold trw.
    rewrite (msum_ext hs _ (fun is => rho is is)) by (intros is Hi; apply (msum_list_delta hs is (fun js => rho js is)); exact Hi). unfold unit_trace in Tr. rewrite Tr. ring.
Qed.
(** Exact frequencies give exact probabilities. *)
Theorem est_pmf_from_exact (x o : ltens CS) ns os hs rho P Q lss f eps : povm_ok x ns hs -> povm_ok o os hs -> nonzero_elems hs ns os x o -> bigd ns <> [] ->
  psd_elems x -> psd_elems o -> sums_to_id x -> unit_trace hs rho -> born_prob x rho P -> born_prob o rho Q ->
  separated hs ns os x o -> single_match hs ns os x o -> covers hs ns os x o f -> (0 < f)%R -> (0 < eps)%R ->
  Forall (fun ls => inr ls os) lss -> lss <> [] -> exact_freqs os Q lss ->
  outc (qr_fails qr) (est_pmf_from qr x o (S2n (bigd os) (map (bigi os) lss)) eps) (fun r =>
    r = (map (fun ks => if is_given hs ns os x o ks then Fin (P (bigi ns ks)) else NaN) (outcomes ns), n_used hs ns os x o lss)).
Proof.
  intros Hx Ho NZ Hb Px Po Sx Tr BP BQ Sep Sm Hc Hf He Hr Hl Hfr.
  assert (EV : forall ks, inr ks ns -> est_val hs ns os x o lss ks = if is_given hs ns os x o ks then P (bigi ns ks) else 0%R).
  { intros ks Hk. rewrite (est_val_exact x o ns os hs rho P Q Hx Ho NZ Px Po Sep BP BQ lss ks Hk Hl Hr Hfr). rewrite single_count by assumption. destruct (is_given hs ns os x o ks); ring. }
  destruct (est_pmf_from_cover x o ns os hs lss f eps Hx Ho NZ Hb Px Sx Hc Hf He Hr Hl) as [E|E]; [right; exact E|left].
  rewrite E, (rmsum_ext ns _ _ EV), (cover_prob hs ns os x o rho P f Hx Hc BP Tr). rewrite Rminus_diag_eq, Rabs_R0, Rleb_true by (reflexivity || lra).
  eexists. split; [reflexivity|]. f_equal. unfold est_array. apply map_ext_in. intros ks Hk. apply (proj1 (outcomes_inr _ _)) in Hk. rewrite EV by exact Hk. destruct (is_given hs ns os x o ks); reflexivity.
Qed.
(** If every outcome of the second POVM counts with the same total factor, every data set is accepted. *)
Theorem est_pmf_from_always (x o : ltens CS) ns os hs lss f eps : povm_ok x ns hs -> povm_ok o os hs -> nonzero_elems hs ns os x o -> bigd ns <> [] ->
  psd_elems x -> sums_to_id x -> covers hs ns os x o f -> (0 < f)%R -> (0 < eps)%R ->
  (forall ls, inr ls (merge_dims ns os) -> rmsum ns (fun ks => if mt hs ns os x o ks ls then pfac hs ns os x o ks ls else 0%R) = f) ->
  Forall (fun ls => inr ls os) lss -> lss <> [] ->
  outc (qr_fails qr) (est_pmf_from qr x o (S2n (bigd os) (map (bigi os) lss)) eps) (fun r => r = (est_array hs ns os x o lss, n_used hs ns os x o lss)).
Proof.
  intros Hx Ho NZ Hb Px Sx Hc Hf He Col Hr Hl. destruct (est_pmf_from_cover x o ns os hs lss f eps Hx Ho NZ Hb Px Sx Hc Hf He Hr Hl) as [E|E]; [right; exact E|left].
  assert (L : length ns = length os) by (destruct Hx as (_ & _ & L1 & _), Ho as (_ & _ & L2 & _); lia).
  assert (T : rmsum ns (est_val hs ns os x o lss) = f).
  { rewrite (rmsum_ext ns _ (fun ks => / INR (length lss) * rsum (map (share hs ns os x o ks) lss))%R) by (intros ks _; rewrite est_val_mean by assumption; unfold Rdiv; ring). rewrite rmsum_scale.
    assert (W : rmsum ns (fun ks => rsum (map (share hs ns os x o ks) lss)) = (INR (length lss) * f)%R).
    { clear -Hr Col L. induction Hr as [|a l Ha H IH].
      - cbn [map length]. rewrite (rmsum_ext _ _ (fun _ => 0 * 0)%R) by (intros; unfold rsum; cbn; lra). rewrite (rmsum_scale _ 0%R (fun _ => 0%R)). cbn [INR]. ring.
      - rewrite (rmsum_ext ns _ (fun ks => share hs ns os x o ks a + rsum (map (share hs ns os x o ks) l))%R) by (intros; cbn [map]; rewrite rsum_cons; reflexivity). rewrite rmsum_add, IH. cbn [length]. rewrite S_INR.
        replace (rmsum ns (fun ks => share hs ns os x o ks a)) with f; [ring|]. symmetry. apply Col. apply proj_inr; assumption. }
    rewrite W. assert (INR (length lss) <> 0%R) by (apply not_0_INR; destruct lss; [congruence|discriminate]). field. assumption. }
  rewrite E, T. rewrite Rminus_diag_eq, Rabs_R0, Rleb_true by (reflexivity || lra). eexists. split; reflexivity.
Qed.
End QR.

Theorem est_pmf_from_none qr (x o : ltens CS) ns os hs lss eps : povm_ok x ns hs -> povm_ok o os hs -> nonzero_elems hs ns os x o -> bigd ns <> [] ->
  Forall (fun ls => inr ls os) lss -> lss <> [] -> (forall ks ls, inr ks ns -> inr ls (merge_dims ns os) -> mt hs ns os x o ks ls = false) ->
  est_pmf_from qr x o (S2n (bigd os) (map (bigi os) lss)) eps = Ok (map (fun _ => NaN) (outcomes ns), 0).
Proof.
  intros Hx Ho NZ Hb Hr Hl H. rewrite (est_pmf_from_eq qr x o ns os hs lss eps) by assumption. cbv zeta. fold (given_list hs ns os x o).
  destruct (existsb (fun b => b) (given_list hs ns os x o)) eqn:E; [|reflexivity]. exfalso. apply existsb_exists in E. destruct E as (b & Hb' & ->). unfold given_list in Hb'. apply in_map_iff in Hb'. destruct Hb' as (ks & G & Hk).
  apply (proj1 (outcomes_inr _ _)) in Hk. apply existsb_exists in G. destruct G as (ls & Hls & M). apply (proj1 (outcomes_inr _ _)) in Hls. rewrite H in M by assumption. discriminate.
Qed.
Theorem est_pmf_from_errors qr (x o : ltens CS) s eps :
  (llen x <> llen o -> est_pmf_from qr x o s eps = Err AssertionError) /\
  (llen x = llen o -> (forall zs, s = S1 zs -> est_pmf_from qr x o s eps = Err IndexError) /\ (forall n rows, s = S2 n rows -> n <> length (nsoutdims o) -> est_pmf_from qr x o s eps = Err AssertionError)).
Proof.
  unfold est_pmf_from. split; intros H.
  - destruct (Nat.eqb_spec (llen x) (llen o)); [congruence|reflexivity].
  - rewrite H, Nat.eqb_refl. cbn [passert]. split; [intros zs ->; reflexivity|]. intros n rows -> N. destruct (Nat.eqb_spec n (length (nsoutdims o))); [congruence|reflexivity].
Qed.
