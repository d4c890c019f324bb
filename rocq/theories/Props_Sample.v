(** Properties: sampling from MP-POVMs.  A random result is a finite list of values with weights
    ([Dist]); [expct m f] is the mean of [f].  [rng_choice] draws an index with the given
    probabilities and draws are independent: this is the assumption on the random generator. *)
From Coq Require Import Reals Lra.
From Verif Require Import PfSample PfKronPovm Props_MpPovm.
Open Scope nat_scope.

(** ** C54: sampling.  [born_prob x rho P]: [P js] is the Born probability of the outcomes [js] on
    the sites with more than one outcome.  [iid ds p n f]: the mean of [f] over [n] independent
    rows with probabilities [p]. *)
Theorem C54_iid ds p n f : iid ds p 0 f = f [] /\ iid ds p (S n) f = rmsum ds (fun x => (p x * iid ds p n (fun xs => f (x :: xs)))%R).
Proof. split; reflexivity. Qed.
Print Assumptions C54_iid.
Theorem C54_probabilities_exist (x : ltens CS) rho : psd_elems x -> mpsd (hdims x) rho -> exists P, born_prob x rho P.
Proof. intros H G. apply born_prob_exists; [exact H|apply mpsd_gram; exact G]. Qed.
Print Assumptions C54_probabilities_exist.
(** Both methods, every group size: the rows are independent with the Born probabilities, no
    matter how the sites are grouped, and no check fails. *)
Theorem C54_sample qr (x st : ltens CS) ns hs m rho P n meth g eps : qr_sound qr -> povm_ok x ns hs -> accepts hs st m IAuto rho ->
  psd_elems x -> sums_to_id x -> mpsd hs rho -> unit_trace hs rho -> (0 <= eps < 1)%R -> nsoutdims x <> [] -> born_prob x rho P ->
  match meth with SCond => (0 < g)%Z | SDirect => True | SUnknown => False end ->
  outc (qr_fails qr) (sample qr x st n meth g m eps) (fun r => kept st (snd r) /\
    forall f, expct (fst r) f = iid (nsoutdims x) P n (fun rows => f (Ok rows))).
Proof.
  intros Hqr Hp Ha Px Cx Gr Tr He Hn HP Hm. assert (T1 : rtrace hs rho = 1%R) by (unfold rtrace; unfold unit_trace in Tr; rewrite Tr; reflexivity).
  eapply outc_weaken; [apply (sample_spec qr Hqr x st ns hs m rho P n meth g eps Hp Ha Px Cx (mpsd_gram _ _ Gr) He); try assumption|exact (fun F => F)|].
  - rewrite T1. replace (1 - 1)%R with 0%R by lra. rewrite Rabs_R0. lra.
  - intros r [K E]. split; [exact K|]. intros f. rewrite E, T1. apply iid_ext_p. intros js _. field.
Qed.
Print Assumptions C54_sample.
(** The probability of a data set is the product of the probabilities of its rows, and the
    probability of an error is zero. *)
Theorem C54_data_set qr (x st : ltens CS) ns hs m rho P n meth g eps : qr_sound qr -> povm_ok x ns hs -> accepts hs st m IAuto rho ->
  psd_elems x -> sums_to_id x -> mpsd hs rho -> unit_trace hs rho -> (0 <= eps < 1)%R -> nsoutdims x <> [] -> born_prob x rho P ->
  match meth with SCond => (0 < g)%Z | SDirect => True | SUnknown => False end ->
  forall xs, length xs = n -> Forall (fun js => inr js (nsoutdims x)) xs ->
  outc (qr_fails qr) (sample qr x st n meth g m eps) (fun r =>
    expct (fst r) (fun v => match v with Ok rows => if rows_eq_dec rows xs then 1 else 0 | Err _ => 0 end)%R = rprod (map P xs) /\
    expct (fst r) (fun v => match v with Ok _ => 0 | Err _ => 1 end)%R = 0%R).
Proof.
  intros Hqr Hp Ha Px Cx Gr Tr He Hn HP Hm xs L V.
  eapply outc_weaken; [apply (C54_sample qr x st ns hs m rho P n meth g eps); assumption|exact (fun F => F)|].
  intros r [_ E]. split; rewrite E; [apply iid_point; assumption|apply iid_zero; intros; reflexivity].
Qed.
Print Assumptions C54_data_set.
(** If the trace [s] of the state differs from one by at most [eps], the probabilities are
    divided by [s]; if it differs by more, both methods fail. *)
Theorem C54_nearly_normalised qr (x st : ltens CS) ns hs m rho P n meth g eps : qr_sound qr -> povm_ok x ns hs -> accepts hs st m IAuto rho ->
  psd_elems x -> sums_to_id x -> mpsd hs rho -> (0 <= eps < 1)%R -> (Rabs (rtrace hs rho - 1) <= eps)%R -> nsoutdims x <> [] -> born_prob x rho P ->
  match meth with SCond => (0 < g)%Z | SDirect => True | SUnknown => False end ->
  outc (qr_fails qr) (sample qr x st n meth g m eps) (fun r => kept st (snd r) /\
    forall f, expct (fst r) f = iid (nsoutdims x) (fun js => P js / rtrace hs rho)%R n (fun rows => f (Ok rows))).
Proof. intros Hqr Hp Ha Px Cx Gr. exact (sample_spec qr Hqr x st ns hs m rho P n meth g eps Hp Ha Px Cx (mpsd_gram _ _ Gr)). Qed.
Print Assumptions C54_nearly_normalised.
Theorem C54_unnormalised qr (x st : ltens CS) ns hs m rho P n meth g eps : qr_sound qr -> povm_ok x ns hs -> accepts hs st m IAuto rho ->
  psd_elems x -> sums_to_id x -> mpsd hs rho -> (0 <= eps)%R -> (eps < Rabs (rtrace hs rho - 1))%R -> nsoutdims x <> [] -> born_prob x rho P -> meth <> SUnknown ->
  sample qr x st n meth g m eps = Err AssertionError \/ (sample qr x st n meth g m eps = Err LinAlgError /\ qr_fails qr).
Proof. intros Hqr Hp Ha Px Cx Gr. exact (sample_unnormalised qr Hqr x st ns hs m rho P n meth g eps Hp Ha Px Cx (mpsd_gram _ _ Gr)). Qed.
Print Assumptions C54_unnormalised.
Theorem C54_errors qr (x st : ltens CS) n meth g m eps :
  (llen x <> llen st -> sample qr x st n meth g m eps = Err AssertionError) /\
  (Exists (fun d => 255 < d) (outdims x) -> sample qr x st n meth g m eps = Err AssertionError) /\
  (llen x = llen st -> Forall (fun d => d <= 255) (outdims x) -> sample qr x st n SUnknown g m eps = Err ValueError).
Proof.
  unfold sample. split; [|split].
  - intros H. rewrite (proj2 (Nat.eqb_neq _ _) H). reflexivity.
  - intros H. assert (E : forallb (fun d => Nat.leb d 255) (outdims x) = false).
    { apply Exists_exists in H. destruct H as (d & Hd & H). destruct (forallb (fun d => Nat.leb d 255) (outdims x)) eqn:E; [|reflexivity]. rewrite forallb_forall in E. specialize (E d Hd). apply Nat.leb_le in E. lia. }
    rewrite E. destruct (Nat.eqb (llen x) (llen st)); reflexivity.
  - intros -> H. rewrite Nat.eqb_refl. replace (forallb _ (outdims x)) with true; [reflexivity|]. symmetry. apply forallb_forall. intros d Hd. apply Nat.leb_le. exact (proj1 (Forall_forall _ _) H d Hd).
Qed.
Print Assumptions C54_errors.
(** A group size that is not positive makes every draw fail. *)
Theorem C54_group_size qr (x st : ltens CS) ns hs m rho P n g eps : qr_sound qr -> povm_ok x ns hs -> accepts hs st m IAuto rho ->
  sums_to_id x -> (0 <= eps < 1)%R -> (Rabs (rtrace hs rho - 1) <= eps)%R -> nsoutdims x <> [] -> born_prob x rho P -> (g <= 0)%Z -> 0 < n ->
  outc (qr_fails qr) (sample qr x st n SCond g m eps) (fun r => forall f, expct (fst r) f = f (Err (if (g =? 0)%Z then ValueError else IndexError))).
Proof. intros Hqr. exact (sample_group_err qr Hqr x st ns hs m rho P n g eps). Qed.
Print Assumptions C54_group_size.
(** The hypotheses are met: X and Z measured on two qubits in the state [|00>]. *)
Example C54_ex : exists x st P, povm_ok x [2; 2] [2; 2] /\ accepts [2; 2] st EMps IAuto (pure st) /\ psd_elems x /\ sums_to_id x /\ mpsd [2; 2] (pure st) /\ unit_trace [2; 2] (pure st) /\
  nsoutdims x <> [] /\ born_prob x (pure st) P.
Proof.
  destruct C50_ex_cplx as (x & st & H1 & H2 & H3 & H4 & H5 & H6). destruct (povm_dims _ _ _ H1) as (D1 & D2 & _).
  destruct (C54_probabilities_exist x (pure st) H3 ltac:(rewrite D2; exact H5)) as (P & HP). exists x, st, P.
  assert (N : nsoutdims x <> []) by (unfold nsoutdims; rewrite D1; discriminate). exact (conj H1 (conj H2 (conj H3 (conj H4 (conj H5 (conj H6 (conj N HP))))))).
Qed.
