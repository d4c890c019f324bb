(** Properties: matching of POVM elements, probabilities estimated from other POVMs. *)
From Coq Require Import Reals Lra.
From Verif Require Import PfMatchEx.
Open Scope nat_scope.
Add Ring Cr : (k_ring CS).

(** [elem_of x ks] is the element of outcome [ks] as a matrix and [summed_elem ns os o ls] the sum
    of the elements of [o] over its outcomes at the sites where [x] has one outcome.  [hsn2] is the
    squared Hilbert-Schmidt norm and [off A B z = A - z B].  [match_at], [pref_at]: entries of the
    two arrays returned by [match_elems]. *)

(** ** C57: [match_elems] *)
(** An entry is True if and only if the relative squared distance of the element from the
    multiples of the other element is at most [eps]; the prefactor is the quotient of the norms. *)
Theorem C57_match (x o : ltens CS) ns os hs eps : povm_ok x ns hs -> povm_ok o os hs -> nonzero_elems hs ns os x o -> (0 <= eps)%R ->
  exists m, match_elems x o [] eps = Ok m /\ m_s m = bigd ns /\ m_o m = bigd (merge_dims ns os) /\
    length (m_match m) = size (m_s m ++ m_o m) /\ length (m_pref m) = size (m_s m ++ m_o m) /\
    forall ks ls, inr ks ns -> inr ls (merge_dims ns os) ->
      let A := elem_of x ks in let B := summed_elem ns os o ls in let b := match_at m (bigi ns ks) (bigi (merge_dims ns os) ls) in
      (b = true <-> exists z, (hsn2 hs (off A B z) <= eps * hsn2 hs A)%R) /\
      pref_at m (bigi ns ks) (bigi (merge_dims ns os) ls) = if b then Fin (sqrt (hsn2 hs A / hsn2 hs B)) else NaN.
Proof.
  intros Hx Ho NZ He. exists (match_tab hs ns os x o eps). split; [rewrite (match_elems_spec x o ns os hs [] eps Hx Ho NZ He (fun f => f)); reflexivity|]. split; [reflexivity|]. split; [reflexivity|].
  destruct (povm_pos _ _ _ Hx) as [P1 _]. destruct (povm_pos _ _ _ Ho) as [P2 _].
  assert (S : size (bigd ns ++ bigd (merge_dims ns os)) = size ns * size (merge_dims ns os)) by (rewrite size_app, !size_bigd by (assumption || apply merge_dims_pos; assumption); reflexivity).
  split; [cbn [match_tab m_match m_s m_o]; rewrite table_length, S; reflexivity|]. split; [cbn [match_tab m_pref m_s m_o]; rewrite table_length, S; reflexivity|].
  intros ks ls Hk Hl A B b. destruct (match_tab_entry x o ns os hs eps ks ls Hx Ho Hk Hl) as [E1 E2]. split; [|exact E2].
  unfold b. rewrite E1. destruct NZ as [N1 N2]. apply match_iff; [apply N1|apply N2]; assumption.
Qed.
Print Assumptions C57_match.
(** With tolerance zero the matches are exactly the proportional elements ... *)
Theorem C57_proportional (x o : ltens CS) ns os hs : povm_ok x ns hs -> povm_ok o os hs -> nonzero_elems hs ns os x o ->
  exists m, match_elems x o [] 0 = Ok m /\ forall ks ls, inr ks ns -> inr ls (merge_dims ns os) ->
    (match_at m (bigi ns ks) (bigi (merge_dims ns os) ls) = true <-> exists z, forall is js, inr is hs -> inr js hs -> elem_of x ks is js = (z * summed_elem ns os o ls is js)%K).
Proof.
  intros Hx Ho NZ. exists (match_tab hs ns os x o 0). split; [rewrite (match_elems_spec x o ns os hs [] 0 Hx Ho NZ (Rle_refl 0) (fun f => f)); reflexivity|].
  intros ks ls Hk Hl. destruct (match_tab_entry x o ns os hs 0 ks ls Hx Ho Hk Hl) as [E1 _]. rewrite E1. destruct NZ as [N1 N2]. apply match_exact; [apply N1|apply N2]; assumption.
Qed.
Print Assumptions C57_proportional.
(** ... and for positive semidefinite elements the prefactor is the factor, within the tolerance. *)
Theorem C57_prefactor hs A B eps : mpsd hs A -> mpsd hs B -> (0 < hsn2 hs A)%R -> (0 < hsn2 hs B)%R ->
  ((exists z, (hsn2 hs (off A B z) <= eps * hsn2 hs A)%R) -> (hsn2 hs (off A B (toC (sqrt (hsn2 hs A / hsn2 hs B)))) <= 2 * eps * hsn2 hs A)%R) /\
  ((exists z, forall is js, inr is hs -> inr js hs -> A is js = (z * B is js)%K) -> forall is js, inr is hs -> inr js hs -> A is js = (toC (sqrt (hsn2 hs A / hsn2 hs B)) * B is js)%K).
Proof.
  intros GA GB NA NB. split.
  - intros H. apply prefactor_close; try assumption; try (apply mpsd_gram; assumption). apply (proj2 (match_iff hs A B eps NA NB)). exact H.
  - apply prefactor_exact; try assumption; apply mpsd_gram; assumption.
Qed.
Print Assumptions C57_prefactor.
(** [exclude_dup]: matching elements must be unique in the POVMs named. *)
Theorem C57_exclude_dup (x o : ltens CS) ns os hs dup eps : povm_ok x ns hs -> povm_ok o os hs -> nonzero_elems hs ns os x o -> (0 <= eps)%R -> ~ In DBad dup ->
  exists m, match_elems x o [] eps = Ok m /\
    ((match_elems x o dup eps = Ok m /\
      (In DSelf dup -> forall i i' j, i < i' < size (m_s m) -> j < size (m_o m) -> matched m i j = true -> matched m i' j = true -> False) /\
      (In DOther dup -> forall i j j', i < size (m_s m) -> j < j' < size (m_o m) -> matched m i j = true -> matched m i j' = true -> False)) \/
     (match_elems x o dup eps = Err AssertionError /\
      ((In DSelf dup /\ exists i i' j, i < i' < size (m_s m) /\ j < size (m_o m) /\ matched m i j = true /\ matched m i' j = true) \/
       (In DOther dup /\ exists i j j', i < size (m_s m) /\ j < j' < size (m_o m) /\ matched m i j = true /\ matched m i j' = true)))).
Proof. exact (exclude_dup_spec x o ns os hs dup eps). Qed.
Print Assumptions C57_exclude_dup.
Theorem C57_match_errors (x o : ltens CS) ns os hs dup eps :
  (hdims x <> hdims o -> match_elems x o dup eps = Err ValueError) /\
  (hdims x = hdims o -> In DBad dup -> match_elems x o dup eps = Err AssertionError) /\
  (povm_ok x ns hs -> povm_ok o os hs ->
    (exists ks, inr ks ns /\ hsn2 hs (elem_of x ks) = 0%R) \/ (exists ls, inr ls (merge_dims ns os) /\ hsn2 hs (summed_elem ns os o ls) = 0%R) -> match_elems x o dup eps = Err AssertionError).
Proof. split; [apply match_elems_errors|]. split; [apply match_elems_badkey|apply match_elems_zero]. Qed.
Print Assumptions C57_match_errors.

(** ** C57: [est_pmf_from].  A data set is a list [lss] of outcomes of [o], one number per site;
    [S2n (bigd os) (map (bigi os) lss)] is the sample array.  [mt ks ls]: the elements match;
    [is_given ks]: some element of [o] matches; [est_val lss ks]: the sum, over the matching
    elements, of factor times frequency; [n_used]: the number of samples with matching elements.
    [covers f]: the matched elements of [x] add to [f] times the identity. *)
Theorem C57_est_value qr (x o : ltens CS) ns os hs lss f eps : qr_sound qr -> povm_ok x ns hs -> povm_ok o os hs -> nonzero_elems hs ns os x o -> bigd ns <> [] ->
  psd_elems x -> sums_to_id x -> covers hs ns os x o f -> (0 < f)%R -> (0 < eps)%R -> Forall (fun ls => inr ls os) lss -> lss <> [] ->
  (est_pmf_from qr x o (S2n (bigd os) (map (bigi os) lss)) eps = Err LinAlgError /\ qr_fails qr) \/
  est_pmf_from qr x o (S2n (bigd os) (map (bigi os) lss)) eps =
    if Rleb (Rabs (rmsum ns (est_val hs ns os x o lss) - f)) eps
    then Ok (map (fun ks => if is_given hs ns os x o ks then Fin (est_val hs ns os x o lss ks) else NaN) (outcomes ns), n_used hs ns os x o lss)
    else Err AssertionError.
Proof. intros Hq. exact (est_pmf_from_cover qr Hq x o ns os hs lss f eps). Qed.
Print Assumptions C57_est_value.
(** Nothing matches: nan everywhere and no samples used. *)
Theorem C57_est_none qr (x o : ltens CS) ns os hs lss eps : povm_ok x ns hs -> povm_ok o os hs -> nonzero_elems hs ns os x o -> bigd ns <> [] ->
  Forall (fun ls => inr ls os) lss -> lss <> [] -> (forall ks ls, inr ks ns -> inr ls (merge_dims ns os) -> mt hs ns os x o ks ls = false) ->
  est_pmf_from qr x o (S2n (bigd os) (map (bigi os) lss)) eps = Ok (map (fun _ => NaN) (outcomes ns), 0).
Proof. exact (est_pmf_from_none qr x o ns os hs lss eps). Qed.
Print Assumptions C57_est_none.
(** Exact frequencies give the exact probabilities, if no element matches twice. *)
Theorem C57_est_exact qr (x o : ltens CS) ns os hs rho P Q lss f eps : qr_sound qr -> povm_ok x ns hs -> povm_ok o os hs -> nonzero_elems hs ns os x o -> bigd ns <> [] ->
  psd_elems x -> psd_elems o -> sums_to_id x -> unit_trace hs rho -> born_prob x rho P -> born_prob o rho Q ->
  separated hs ns os x o -> single_match hs ns os x o -> covers hs ns os x o f -> (0 < f)%R -> (0 < eps)%R ->
  Forall (fun ls => inr ls os) lss -> lss <> [] -> (forall l, inr l os -> (INR (count_occ row_dec lss l) / INR (length lss) = Q (bigi os l))%R) ->
  outc (qr_fails qr) (est_pmf_from qr x o (S2n (bigd os) (map (bigi os) lss)) eps) (fun r =>
    r = (map (fun ks => if is_given hs ns os x o ks then Fin (P (bigi ns ks)) else NaN) (outcomes ns), n_used hs ns os x o lss)).
Proof. intros Hq. exact (est_pmf_from_exact qr Hq x o ns os hs rho P Q lss f eps). Qed.
Print Assumptions C57_est_exact.
(** Means over all data sets: every matching element contributes the probability once, so the
    estimate is unbiased if exactly one element matches. *)
Theorem C57_est_mean (x o : ltens CS) ns os hs rho P Q n ks : povm_ok x ns hs -> povm_ok o os hs -> nonzero_elems hs ns os x o -> psd_elems x -> psd_elems o -> separated hs ns os x o ->
  born_prob x rho P -> born_prob o rho Q -> sums_to_id o -> unit_trace hs rho -> inr ks ns -> 0 < n ->
  iid os (fun l => Q (bigi os l)) n (fun lss => est_val hs ns os x o lss ks) = (rmsum (merge_dims ns os) (fun ls => if mt hs ns os x o ks ls then 1 else 0) * P (bigi ns ks))%R.
Proof. intros Hx Ho NZ Px Po Sp BP BQ So Tr Hk Hn. exact (est_val_unbiased x o ns os hs rho P Q Hx Ho NZ Px Po Sp BP BQ n ks Hk Hn So Tr). Qed.
Print Assumptions C57_est_mean.
(** Every data set is accepted if every outcome of [o] counts with the same total factor. *)
Theorem C57_est_accepts qr (x o : ltens CS) ns os hs lss f eps : qr_sound qr -> povm_ok x ns hs -> povm_ok o os hs -> nonzero_elems hs ns os x o -> bigd ns <> [] ->
  psd_elems x -> sums_to_id x -> covers hs ns os x o f -> (0 < f)%R -> (0 < eps)%R ->
  (forall ls, inr ls (merge_dims ns os) -> rmsum ns (fun ks => if mt hs ns os x o ks ls then pfac hs ns os x o ks ls else 0%R) = f) ->
  Forall (fun ls => inr ls os) lss -> lss <> [] ->
  outc (qr_fails qr) (est_pmf_from qr x o (S2n (bigd os) (map (bigi os) lss)) eps) (fun r => r = (est_array hs ns os x o lss, n_used hs ns os x o lss)).
Proof. intros Hq. exact (est_pmf_from_always qr Hq x o ns os hs lss f eps). Qed.
Print Assumptions C57_est_accepts.
Theorem C57_est_errors qr (x o : ltens CS) s eps :
  (llen x <> llen o -> est_pmf_from qr x o s eps = Err AssertionError) /\
  (llen x = llen o -> (forall zs, s = S1 zs -> est_pmf_from qr x o s eps = Err IndexError) /\ (forall n rows, s = S2 n rows -> n <> length (nsoutdims o) -> est_pmf_from qr x o s eps = Err AssertionError)).
Proof. exact (est_pmf_from_errors qr x o s eps). Qed.
Print Assumptions C57_est_errors.
(** Two sites, four outcomes and one outcome, against basis measurements on both sites *)
Example C57_ex qr eps : qr_sound qr -> (0 < eps)%R -> exists x o rho P Q, povm_ok x [4; 1] [2; 2] /\ povm_ok o [2; 2] [2; 2] /\ psd_elems x /\ sums_to_id x /\ psd_elems o /\ sums_to_id o /\
  nonzero_elems [2; 2] [4; 1] [2; 2] x o /\ separated [2; 2] [4; 1] [2; 2] x o /\ single_match [2; 2] [4; 1] [2; 2] x o /\ covers [2; 2] [4; 1] [2; 2] x o (1 / 2) /\
  unit_trace [2; 2] rho /\ born_prob x rho P /\ born_prob o rho Q /\ exact_freqs [2; 2] Q two_rows /\
  outc (qr_fails qr) (est_pmf_from qr x o (S2n [2; 2] two_rows) eps) (fun r => r = ([Fin (1 / 4); Fin (1 / 4); NaN; NaN], 4)).
Proof. exact (two_estimate qr eps). Qed.
(** Matching elements are added, not averaged: exact frequencies are rejected when an element of
    [x] matches two elements of [o]. *)
Theorem C57_duplicates_refuted qr eps : qr_sound qr -> (0 < eps < 1 / 2)%R -> exists x o rho P Q lss, povm_ok x [2] [2] /\ povm_ok o [3] [2] /\ psd_elems x /\ sums_to_id x /\ psd_elems o /\ sums_to_id o /\
  nonzero_elems [2] [2] [3] x o /\ separated [2] [2] [3] x o /\ unit_trace [2] rho /\ born_prob x rho P /\ born_prob o rho Q /\ lss <> [] /\ Forall (fun l => inr l [3]) lss /\ exact_freqs [3] Q lss /\
  (est_pmf_from qr x o (S2n [3] lss) eps = Err AssertionError \/ qr_fails qr).
Proof. exact (dup_rejected qr eps). Qed.
Print Assumptions C57_duplicates_refuted.
(** A sample that can occur is rejected when [o] has elements without match. *)
Theorem C57_unmatched_refuted qr eps : qr_sound qr -> (0 < eps < 1)%R -> exists x o, povm_ok x [2] [2] /\ povm_ok o [4] [2] /\ psd_elems x /\ sums_to_id x /\ psd_elems o /\ sums_to_id o /\
  nonzero_elems [2] [2] [4] x o /\ separated [2] [2] [4] x o /\ single_match [2] [2] [4] x o /\ covers [2] [2] [4] x o 1 /\
  (est_pmf_from qr x o (S2n [4] [[0]]) eps = Err AssertionError \/ qr_fails qr).
Proof. exact (unmatched_rejected qr eps). Qed.
Print Assumptions C57_unmatched_refuted.
