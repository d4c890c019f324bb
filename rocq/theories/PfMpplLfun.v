(** [MPPovmList.lfun] (mppovm.py 1393-1412). *)
From Coq Require Import Reals Lra.
From Verif Require Export PfLfunVal.
Open Scope nat_scope.
Add Ring Cr : (k_ring CS).

Section List.
Variable qr : nd CS -> res (nd CS * nd CS).
Hypothesis Hqr : qr_sound qr.
Variables (hs : list nat) (rho : mat CS) (eps : R) (st : ltens CS) (m : pmode).
Hypothesis Acc : accepts hs st m IAuto rho.
Hypothesis Gr : gram_rho hs rho.
Hypothesis Tr : unit_trace hs rho.
Hypothesis He : (0 <= eps)%R.
(** A member with its coefficients and functions *)
Definition entryT : Type := meas * (list R * option (list ofun)).
Definition efun (a : entryT) : ofun := lin (fst (snd a)) (funs_of (bigd (me_n (fst a))) (snd (snd a))).
Definition emean (a : entryT) : R := mean (bigd (me_n (fst a))) (me_p (fst a)) (efun a).
Definition evar (a : entryT) : R := cv (bigd (me_n (fst a))) (me_p (fst a)) (efun a) (efun a).
Definition entry_ok (a : entryT) : Prop := meas_ok hs rho (fst a) /\ bigd (me_n (fst a)) <> [] /\ nonempty_args (Some (fst (snd a))) (snd (snd a)) /\
  length (fst (snd a)) = length (funs_of (bigd (me_n (fst a))) (snd (snd a))).
Lemma combine3 (A : list entryT) : combine (map (fun a => me_x (fst a)) A) (combine (map (fun a => fst (snd a)) A) (map (fun a => snd (snd a)) A)) = map (fun a => (me_x (fst a), snd a)) A.
Proof. induction A as [|[b [c f]] A IH]; [reflexivity|]. cbn [map combine fst snd]. rewrite IH. reflexivity. Qed.
Lemma entry_outc a : entry_ok a -> outc (qr_fails qr) (lfun qr (me_x (fst a)) (Some (fst (snd a))) (snd (snd a)) st m eps) (fun z => fst z = LVal (Fin (emean a)) (Fin (evar a)) /\ snd z = st).
Proof.
  intros ((Hb & Pb & Sb & Bb) & Nb & NE & CO). destruct (povm_dims _ _ _ Hb) as (D & _). assert (Nx : nsoutdims (me_x (fst a)) = bigd (me_n (fst a))) by (unfold nsoutdims; rewrite D; reflexivity).
  apply (outc_state (qr_fails qr) _ (fun z => z = LVal (Fin (emean a)) (Fin (evar a)))); [|intros z s; apply lfun_state].
  pose proof (lfun_spec qr Hqr (me_x (fst a)) st (me_n (fst a)) hs m rho (me_p (fst a)) _ _ eps Hb Acc Pb Sb Gr Tr He ltac:(rewrite Nx; exact Nb) Bb NE) as R. rewrite Nx in R. specialize (R CO).
  apply (outc_weaken _ _ _ _ _ R (fun f => f)). intros z [_ E]. rewrite E. reflexivity.
Qed.
Theorem mppl_lfun_value (A : list entryT) funs : A <> [] -> Forall entry_ok A ->
  funs = Some (map (fun a => snd (snd a)) A) \/ (funs = None /\ forall a, In a A -> snd (snd a) = None) ->
  outc (qr_fails qr) (mppl_lfun qr (map (fun a => me_x (fst a)) A) (map (fun a => fst (snd a)) A) funs st m eps) (fun z =>
    fst z = LVal (Fin (rsum (map emean A))) (Fin (rsum (map evar A))) /\ snd z = st).
Proof.
  intros NA HA HF. unfold mppl_lfun. set (fs := match funs with None => _ | Some fs => fs end).
  assert (EF : fs = map (fun a => snd (snd a)) A). { unfold fs. destruct HF as [->|[-> HN]]; [reflexivity|]. rewrite map_map. apply map_ext_in. intros a Ha. symmetry. apply HN. exact Ha. }
  rewrite EF, !map_length, Nat.eqb_refl. cbn [passert]. rewrite combine3.
  assert (TM : forall l s, thread (fun q s => lfun qr (fst q) (Some (fst (snd q))) (snd (snd q)) s m eps) (map (fun a : entryT => (me_x (fst a), snd a)) l) s = thread (fun a s => lfun qr (me_x (fst a)) (Some (fst (snd a))) (snd (snd a)) s m eps) l s).
  { induction l as [|a l IH]; intros s; [reflexivity|]. cbn [map thread fst snd]. destruct (lfun _ _ _ _ _ _) as [r|]; [|reflexivity]. cbn [bind]. rewrite IH. reflexivity. }
  rewrite TM. apply (outc_bind _ _ _ (fun z => fst z = map (fun a => LVal (Fin (emean a)) (Fin (evar a))) A /\ snd z = st)).
  - apply thread_outc. intros a Ha. apply entry_outc. rewrite Forall_forall in HA. apply HA. exact Ha.
  - intros [vs s] [E1 E2]. cbn [fst snd] in E1, E2. subst vs s. cbn [fst snd]. rewrite <- (map_map (fun a => (emean a, evar a)) (fun p => LVal (Fin (fst p)) (Fin (snd p)))). rewrite lres_sum_vals by (destruct A; [congruence|discriminate]).
    cbn [bind]. apply outc_ok. cbn [fst snd]. rewrite !map_map. split; reflexivity.
Qed.
End List.
Theorem mppl_lfun_errors qr xs coeff funs st m eps :
  (length xs <> length coeff -> mppl_lfun qr xs coeff funs st m eps = Err AssertionError) /\
  (forall fs, funs = Some fs -> length xs = length coeff -> length xs <> length fs -> mppl_lfun qr xs coeff funs st m eps = Err AssertionError) /\
  (xs = [] -> coeff = [] -> funs = None \/ funs = Some [] -> mppl_lfun qr xs coeff funs st m eps = Err ValueError).
Proof.
  unfold mppl_lfun. split; [|split].
  - intros H. destruct (Nat.eqb_spec (length xs) (length coeff)); [congruence|reflexivity].
  - intros fs -> H N. rewrite H, Nat.eqb_refl. cbn [passert]. rewrite <- H. destruct (Nat.eqb_spec (length xs) (length fs)); [congruence|reflexivity].
  - intros -> -> [-> | ->]; reflexivity.
Qed.
