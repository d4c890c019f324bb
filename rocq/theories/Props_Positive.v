(** Positive operators (C88): [op_positive x ds] ([PfRedStates]) says that <v|x|v> is real and not
    negative for every vector v of the space with site dimensions ds. *)
From Coq Require Import Reals.
From Verif Require Import PfRedStates PfOper Props_Oper Examples.
Open Scope nat_scope.
Add Ring Cr : (k_ring CS).

(** dot(a, adj(a)) and dot(adj(a), a) are positive, whatever a is. *)
Theorem C88_gram (a : ltens CS) ds es : is_op a ds es ->
  exists aa p q, madj a = Ok aa /\ mdot a aa (AInt (-1) 0) = Ok p /\ mdot aa a (AInt (-1) 0) = Ok q /\ op_positive p ds /\ op_positive q es.
Proof.
  intros Ha. destruct (adj_op a _ _ Ha) as (aa & E1 & O1 & _ & V1). destruct (dot_op a aa _ _ _ Ha O1) as (p & E2 & _ & _ & V2). destruct (dot_op aa a _ _ _ O1 Ha) as (q & E3 & _ & _ & V3).
  exists aa, p, q. repeat (split; [assumption|]). split; apply gram_mpsd.
  - exists es, (fun c is => entry a (pairs is c)). intros is js Hi Hj. rewrite V2 by assumption. apply msum_ext. intros c Hc. rewrite V1 by assumption. reflexivity.
  - exists ds, (fun c is => kconj (entry a (pairs c is))). intros is js Hi Hj. rewrite V3 by assumption. apply msum_ext. intros c Hc. rewrite V1 by assumption. rewrite kconj_invol. reflexivity.
Qed.
Print Assumptions C88_gram.
(** a rho adj(a) is positive if rho is: applying an operator keeps states positive. *)
Theorem C88_conjugation (a r : ltens CS) ds es : is_op a ds es -> is_op r es es -> op_positive r es ->
  exists aa ar z, madj a = Ok aa /\ mdot a r (AInt (-1) 0) = Ok ar /\ mdot ar aa (AInt (-1) 0) = Ok z /\ op_positive z ds.
Proof.
  intros Ha Hr Hp. destruct (adj_op a _ _ Ha) as (aa & E1 & O1 & _ & V1). destruct (dot_op a r _ _ _ Ha Hr) as (ar & E2 & O2 & _ & V2). destruct (dot_op ar aa _ _ _ O2 O1) as (z & E3 & _ & _ & V3).
  exists aa, ar, z. repeat (split; [assumption|]). apply gram_mpsd. destruct (mpsd_gram _ _ Hp) as (cs & w & Hw).
  exists cs, (fun c is => msum es (fun k => entry a (pairs is k) * w c k)%K). intros is js Hi Hj. rewrite V3 by assumption.
  transitivity (msum es (fun l => msum es (fun k => msum cs (fun c => (entry a (pairs is k) * w c k) * kconj (entry a (pairs js l) * w c l)))))%K.
  - apply msum_ext. intros l Hl. rewrite V1, V2 by assumption. rewrite <- msum_mul_r. apply msum_ext. intros k Hk. rewrite Hw by assumption.
    rewrite <- msum_mul_l, <- msum_mul_r. apply msum_ext. intros c _. rewrite kconj_mul. ring.
  - transitivity (msum es (fun l => msum cs (fun c => msum es (fun k => (entry a (pairs is k) * w c k) * kconj (entry a (pairs js l) * w c l)))))%K.
    + apply msum_ext. intros l _. apply msum_swap.
    + rewrite msum_swap. apply msum_ext. intros c _. rewrite msum_conj, <- msum_mul_l. apply msum_ext. intros l _. apply msum_mul_r.
Qed.
Print Assumptions C88_conjugation.
(** Sums and multiples with a nonnegative factor of positive operators are positive. *)
Theorem C88_cone (a b : ltens CS) (f : CS) ds : is_op a ds ds -> is_op b ds ds -> cform_ok a -> op_positive a ds -> op_positive b ds -> cnonneg f ->
  exists s m, madd a b = Ok s /\ mmul a f = Ok m /\ op_positive s ds /\ op_positive m ds.
Proof.
  intros Ha Hb Hc Pa Pb Hf. destruct (add_op CS a b _ _ Ha Hb) as (s & E1 & _ & V1). destruct (mul_op CS a f _ _ Ha Hc) as (m & E2 & _ & V2). exists s, m. repeat (split; [assumption|]). split; intros v.
  - pose proof (cnonneg_add _ _ (Pa v) (Pb v)) as H. rewrite <- msum_add in H. erewrite msum_ext; [exact H|]. intros is Hi. cbv beta. rewrite <- msum_add. apply msum_ext. intros js Hj. cbv beta. rewrite V1 by assumption. ring.
  - pose proof (cnonneg_mul _ _ Hf (Pa v)) as H. rewrite <- msum_mul_l in H. erewrite msum_ext; [exact H|]. intros is Hi. cbv beta. rewrite <- msum_mul_l. apply msum_ext. intros js Hj. cbv beta. rewrite V2 by assumption. ring.
Qed.
Print Assumptions C88_cone.
(** The trace of the product of two positive operators is real and not negative. *)
Theorem C88_trace_product (a b : ltens CS) ds : is_op a ds ds -> is_op b ds ds -> op_positive a ds -> op_positive b ds ->
  exists p t, mdot a b (AInt (-1) 0) = Ok p /\ mtrace p (PTAll 0 1) = Ok t /\ cnonneg t.
Proof.
  intros Ha Hb Pa Pb. destruct (dot_op a b _ _ _ Ha Hb) as (p & E & O & _ & V). exists p. eexists. split; [exact E|]. split; [apply (trace_op p ds O)|].
  destruct (mpsd_gram _ _ Pb) as (cs & w & Hw).
  rewrite (msum_ext ds _ (fun is => msum cs (fun c => msum ds (fun js => kconj (w c is) * entry a (pairs is js) * w c js)))%K).
  - rewrite msum_swap. apply cnonneg_msum. intros c _. apply (Pa (w c)).
  - intros is Hi. rewrite V by assumption. rewrite msum_swap. apply msum_ext. intros js Hj. rewrite Hw by assumption. rewrite <- msum_mul_l. apply msum_ext. intros c _. ring.
Qed.
Print Assumptions C88_trace_product.
(** chain: tensor products of positive operators are positive. *)
Theorem C88_tensor (a c : ltens CS) ds ds' : is_op a ds ds -> is_op c ds' ds' -> op_positive a ds -> op_positive c ds' ->
  exists z, mchain [a; c] = Ok z /\ op_positive z (ds ++ ds').
Proof.
  intros Ha Hc Pa Pc. destruct (chain_op CS a c _ _ _ _ Ha Hc) as (z & E & _ & V). exists z. split; [exact E|]. apply gram_mpsd.
  destruct (mpsd_gram _ _ Pa) as (es & w & Hw). destruct (mpsd_gram _ _ Pc) as (es' & w' & Hw').
  exists (es ++ es'), (fun k is => w (firstn (length es) k) (firstn (length ds) is) * w' (skipn (length es) k) (skipn (length ds) is))%K.
  intros is js Hi Hj. apply inr_app_inv in Hi. destruct Hi as (i1 & i2 & -> & I1 & I2). apply inr_app_inv in Hj. destruct Hj as (j1 & j2 & -> & J1 & J2).
  rewrite V, Hw, Hw' by assumption. rewrite msum_app, <- msum_mul_r. apply msum_ext. intros k Hk. rewrite <- msum_mul_l. apply msum_ext. intros k' _.
  pose proof (inr_length _ _ Hk). pose proof (inr_length _ _ I1). pose proof (inr_length _ _ J1).
  rewrite !skipn_len_app, !firstn_len_app by auto. rewrite kconj_mul. ring.
Qed.
Print Assumptions C88_tensor.

(** A product of a two-site operator with its adjoint: positive, not diagonal, of trace 9; it meets the hypotheses of all theorems above. *)
Definition ex_ap : ltens CS := mkLt [mkNd [1;2;2;1] [k1; k1; k0; k1]; mkNd [1;2;2;1] [k1; k0; k1; k1]] 0 2.
Example C88_ex : is_op ex_ap [2; 2] [2; 2] /\
  exists aa p, madj ex_ap = Ok aa /\ mdot ex_ap aa (AInt (-1) 0) = Ok p /\ is_op p [2; 2] [2; 2] /\ cform_ok p /\ op_positive p [2; 2] /\
    mtrace p (PTAll 0 1) = Ok (toC (IZR 9)) /\ entry p [[0; 1]; [0; 1]] = k1.
Proof.
  assert (O : is_op ex_ap [2; 2] [2; 2]) by (split; [split; [discriminate|repeat constructor; cbn; lia]|split; reflexivity]). split; [exact O|].
  destruct (C88_gram _ _ _ O) as (aa & p & q & E1 & E2 & _ & P & _). exists aa, p. split; [exact E1|]. split; [exact E2|].
  destruct (adj_op _ _ _ O) as (aa' & E1' & O1 & _ & V1). rewrite E1 in E1'. injection E1' as <-. destruct (dot_op _ _ _ _ _ O O1) as (p' & E2' & O2 & _ & V2). rewrite E2 in E2'. injection E2' as <-.
  split; [exact O2|]. split.
  { cbn in E1. injection E1 as <-. cbn in E2. injection E2 as <-. apply cform_okb_ok. reflexivity. }
  split; [exact P|]. split.
  - rewrite (trace_op p [2; 2] O2). f_equal. rewrite (msum_ext [2; 2] _ (fun is => msum [2; 2] (fun js => entry ex_ap (pairs is js) * kconj (entry ex_ap (pairs is js))))%K).
    + apply cplx_eq; lazy -[Rplus Rmult Rminus Ropp IZR]; ring.
    + intros is Hi. rewrite V2 by assumption. apply msum_ext. intros js Hj. rewrite V1 by assumption. reflexivity.
  - change [[0; 1]; [0; 1]] with (pairs [0; 0] [1; 1]). rewrite V2 by (repeat constructor; lia).
    rewrite (msum_ext [2; 2] _ (fun js => entry ex_ap (pairs [0; 0]%nat js) * kconj (entry ex_ap (pairs [1; 1]%nat js)))%K).
    + apply cplx_eq; lazy -[Rplus Rmult Rminus Ropp IZR]; ring.
    + intros js Hj. rewrite V1 by (assumption || (repeat constructor; lia)). reflexivity.
Qed.
