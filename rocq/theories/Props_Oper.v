(** MPOs as linear operators (C86).  [is_op x ds es] and [is_vec v ds] ([PfOper]): a consistent
    MPArray with two legs (dimensions ds and es) or one leg per site; [same_op] compares all entries. *)
From Verif Require Import PfOper PfEnergy Props_Algebra Props_Factory Props_Build Examples.
Open Scope nat_scope.

(** The product of MPOs is associative ... *)
Theorem C86_associative (K : StarRing) (a b c : ltens K) ds es fs gs : is_op a ds es -> is_op b es fs -> is_op c fs gs ->
  exists ab bc l r, mdot a b (AInt (-1) 0) = Ok ab /\ mdot b c (AInt (-1) 0) = Ok bc /\
    mdot ab c (AInt (-1) 0) = Ok l /\ mdot a bc (AInt (-1) 0) = Ok r /\ is_op l ds gs /\ is_op r ds gs /\ same_op l r ds gs.
Proof.
  intros Ha Hb Hc. destruct (dot_op a b _ _ _ Ha Hb) as (ab & E1 & O1 & _ & V1). destruct (dot_op b c _ _ _ Hb Hc) as (bc & E2 & O2 & _ & V2).
  destruct (dot_op ab c _ _ _ O1 Hc) as (l & E3 & O3 & _ & V3). destruct (dot_op a bc _ _ _ Ha O2) as (r & E4 & O4 & _ & V4).
  exists ab, bc, l, r. repeat (split; [assumption|]). intros is ks Hi Hk. rewrite V3, V4 by assumption.
  transitivity (msum fs (fun j => msum es (fun i => entry a (pairs is i) * (entry b (pairs i j) * entry c (pairs j ks)))))%K.
  - apply msum_ext. intros j Hj. rewrite V1 by assumption. rewrite <- msum_mul_r. apply msum_ext. intros i _. symmetry. apply (Rmul_assoc (k_ring K)).
  - rewrite msum_swap. apply msum_ext. intros i Hi'. rewrite V2 by assumption. apply msum_mul_l.
Qed.
Print Assumptions C86_associative.
(** ... and is the composition of the maps on MPSs. *)
Theorem C86_composition (K : StarRing) (a b v : ltens K) ds es fs : is_op a ds es -> is_op b es fs -> is_vec v fs ->
  exists ab bv l r, mdot a b (AInt (-1) 0) = Ok ab /\ mdot b v (AInt (-1) 0) = Ok bv /\
    mdot ab v (AInt (-1) 0) = Ok l /\ mdot a bv (AInt (-1) 0) = Ok r /\ is_vec l ds /\ is_vec r ds /\
    forall is, inr is ds -> entry l (singles is) = entry r (singles is).
Proof.
  intros Ha Hb Hc. destruct (dot_op a b _ _ _ Ha Hb) as (ab & E1 & O1 & _ & V1). destruct (dot_vec b v _ _ Hb Hc) as (bv & E2 & O2 & _ & V2).
  destruct (dot_vec ab v _ _ O1 Hc) as (l & E3 & O3 & _ & V3). destruct (dot_vec a bv _ _ Ha O2) as (r & E4 & O4 & _ & V4).
  exists ab, bv, l, r. repeat (split; [assumption|]). intros is Hi. rewrite V3, V4 by assumption.
  transitivity (msum fs (fun j => msum es (fun i => entry a (pairs is i) * (entry b (pairs i j) * entry v (singles j)))))%K.
  - apply msum_ext. intros j Hj. rewrite V1 by assumption. rewrite <- msum_mul_r. apply msum_ext. intros i _. symmetry. apply (Rmul_assoc (k_ring K)).
  - rewrite msum_swap. apply msum_ext. intros i Hi'. rewrite V2 by assumption. apply msum_mul_l.
Qed.
Print Assumptions C86_composition.
(** mpo.eye is neutral. *)
Theorem C86_identity (K : StarRing) (a : ltens K) ds es : is_op a ds es ->
  exists l r la ar, mpo_eye (llen a) (EyeList ds) = Ok l /\ mpo_eye (llen a) (EyeList es) = Ok r /\
    mdot l a (AInt (-1) 0) = Ok la /\ mdot a r (AInt (-1) 0) = Ok ar /\ is_op la ds es /\ is_op ar ds es /\ same_op la a ds es /\ same_op ar a ds es.
Proof.
  intros Ha. assert (Ld : length ds = llen a /\ length es = llen a /\ 0 < llen a).
  { destruct Ha as ([N _] & L & S). rewrite <- mshape_length, S, pairs_length by exact L. repeat split; [congruence|]. rewrite <- (pairs_length ds es L), <- S, mshape_length.
    unfold llen. destruct (lts a); [congruence|cbn; lia]. }
  destruct Ld as (Ld & Le & Lp).
  destruct (C42_eye K (llen a) (EyeList ds) ds Lp Ld ltac:(left; reflexivity)) as (l & El & Hl & Sl & _ & _ & Vl).
  destruct (C42_eye K (llen a) (EyeList es) es Lp Le ltac:(left; reflexivity)) as (r & Er & Hr & Sr & _ & _ & Vr).
  assert (Ol : is_op l ds ds) by (split; [exact Hl|]; split; [reflexivity|rewrite Sl; apply pairs_diag]).
  assert (Or : is_op r es es) by (split; [exact Hr|]; split; [reflexivity|rewrite Sr; apply pairs_diag]).
  destruct (dot_op l a _ _ _ Ol Ha) as (la & E1 & O1 & _ & V1). destruct (dot_op a r _ _ _ Ha Or) as (ar & E2 & O2 & _ & V2).
  exists l, r, la, ar. repeat (split; [assumption|]). split; intros is js Hi Hj.
  - rewrite V1 by assumption. rewrite (msum_ext ds _ (fun k => list_delta is k * entry a (pairs k js))%K).
    + apply (msum_list_delta ds is (fun k => entry a (pairs k js)) Hi).
    + intros k Hk. f_equal. unfold list_delta. destruct (list_eqb is k) eqn:Q; apply Vl; auto; [apply list_eqb_eq; exact Q|intros ->; rewrite (proj2 (list_eqb_eq k k) eq_refl) in Q; discriminate].
  - rewrite V2 by assumption. rewrite (msum_ext es _ (fun k => list_delta js k * entry a (pairs is k))%K).
    + apply (msum_list_delta es js (fun k => entry a (pairs is k)) Hj).
    + intros k Hk. rewrite (Rmul_comm (k_ring K)). f_equal. unfold list_delta. destruct (list_eqb js k) eqn:Q; apply Vr; auto; [symmetry; apply list_eqb_eq; exact Q|intros ->; rewrite (proj2 (list_eqb_eq js js) eq_refl) in Q; discriminate].
Qed.
Print Assumptions C86_identity.
(** adj reverses products, and taken twice it gives the operator back. *)
Theorem C86_adjoint_product (K : StarRing) (a b : ltens K) ds es fs : is_op a ds es -> is_op b es fs ->
  exists ab aa ba l r, mdot a b (AInt (-1) 0) = Ok ab /\ madj a = Ok aa /\ madj b = Ok ba /\ madj ab = Ok l /\ mdot ba aa (AInt (-1) 0) = Ok r /\
    is_op l fs ds /\ is_op r fs ds /\ same_op l r fs ds.
Proof.
  intros Ha Hb. destruct (dot_op a b _ _ _ Ha Hb) as (ab & E1 & O1 & _ & V1). destruct (adj_op a _ _ Ha) as (aa & E2 & O2 & _ & V2). destruct (adj_op b _ _ Hb) as (ba & E3 & O3 & _ & V3).
  destruct (adj_op ab _ _ O1) as (l & E4 & O4 & _ & V4). destruct (dot_op ba aa _ _ _ O3 O2) as (r & E5 & O5 & _ & V5).
  exists ab, aa, ba, l, r. repeat (split; [assumption|]). intros is js Hi Hj. rewrite V4, V5, V1 by assumption. rewrite msum_conj. apply msum_ext. intros k Hk.
  rewrite V2, V3 by assumption. rewrite (kconj_mul K). apply (Rmul_comm (k_ring K)).
Qed.
Print Assumptions C86_adjoint_product.
Theorem C86_adjoint_twice (K : StarRing) (a : ltens K) ds es : is_op a ds es ->
  exists b c, madj a = Ok b /\ madj b = Ok c /\ is_op c ds es /\ same_op c a ds es.
Proof.
  intros Ha. destruct (adj_op a _ _ Ha) as (b & E1 & O1 & _ & V1). destruct (adj_op b _ _ O1) as (c & E2 & O2 & _ & V2). exists b, c. repeat (split; [assumption|]).
  intros is js Hi Hj. rewrite V2, V1 by assumption. apply (kconj_invol K).
Qed.
Print Assumptions C86_adjoint_twice.
(** adj is the adjoint with respect to inner: <a v, w> = <v, adj(a) w>. *)
Theorem C86_adjoint_inner (K : StarRing) (a v w : ltens K) ds es : is_op a ds es -> is_vec v es -> is_vec w ds -> bonds_pos a -> bonds_pos v -> bonds_pos w ->
  exists aa av aw s t, madj a = Ok aa /\ mdot a v (AInt (-1) 0) = Ok av /\ mdot aa w (AInt (-1) 0) = Ok aw /\
    minner av w = Ok s /\ minner v aw = Ok t /\ get s [] = get t [].
Proof.
  intros Ha Hv Hw Pa Pv Pw. destruct (adj_op a _ _ Ha) as (aa & E1 & O1 & R1 & V1). destruct (dot_vec a v _ _ Ha Hv) as (av & E2 & O2 & R2 & V2). destruct (dot_vec aa w _ _ O1 Hw) as (aw & E3 & O3 & R3 & V3).
  assert (Paa : bonds_pos aa) by (apply (bonds_pos_of_ranks a aa); [apply Ha|apply O1|exact R1|exact Pa]).
  assert (P2 : bonds_pos av) by (apply (dot_bonds_pos a v av); [apply O2|assumption..]).
  assert (P3 : bonds_pos aw) by (apply (dot_bonds_pos aa w aw); [apply O3|assumption..]).
  destruct (inner_vec av w ds O2 Hw P2 Pw) as (s & E4 & V4). destruct (inner_vec v aw es Hv O3 Pv P3) as (t & E5 & V5).
  exists aa, av, aw, s, t. repeat (split; [assumption|]). rewrite V4, V5.
  transitivity (msum ds (fun i => msum es (fun j => kconj (entry a (pairs i j)) * kconj (entry v (singles j)) * entry w (singles i))))%K.
  - apply msum_ext. intros i Hi. rewrite V2 by assumption. rewrite msum_conj, <- msum_mul_r. apply msum_ext. intros j _. rewrite (kconj_mul K). reflexivity.
  - rewrite msum_swap. apply msum_ext. intros j Hj. rewrite V3 by assumption. rewrite <- msum_mul_l. apply msum_ext. intros i Hi. rewrite V1 by assumption.
    rewrite (Rmul_comm (k_ring K) (kconj (entry a _))). symmetry. apply (Rmul_assoc (k_ring K)).
Qed.
Print Assumptions C86_adjoint_inner.
(** The trace is cyclic, also for rectangular operators. *)
Theorem C86_trace_cyclic (K : StarRing) (a b : ltens K) ds es : is_op a ds es -> is_op b es ds ->
  exists ab ba t, mdot a b (AInt (-1) 0) = Ok ab /\ mdot b a (AInt (-1) 0) = Ok ba /\ mtrace ab (PTAll 0 1) = Ok t /\ mtrace ba (PTAll 0 1) = Ok t.
Proof.
  intros Ha Hb. destruct (dot_op a b _ _ _ Ha Hb) as (ab & E1 & O1 & _ & V1). destruct (dot_op b a _ _ _ Hb Ha) as (ba & E2 & O2 & _ & V2).
  exists ab, ba, (msum ds (fun is => entry ab (pairs is is))). split; [exact E1|]. split; [exact E2|]. split; [apply trace_op; exact O1|]. rewrite (trace_op ba es O2). f_equal.
  transitivity (msum es (fun j => msum ds (fun i => entry a (pairs i j) * entry b (pairs j i))))%K.
  - apply msum_ext. intros j Hj. rewrite V2 by assumption. apply msum_ext. intros i _. apply (Rmul_comm (k_ring K)).
  - rewrite msum_swap. apply msum_ext. intros i Hi. symmetry. apply V1; assumption.
Qed.
Print Assumptions C86_trace_cyclic.
(** inner of two MPOs is the Hilbert-Schmidt inner product tr(adj(a) b). *)
Theorem C86_hilbert_schmidt (K : StarRing) (a b : ltens K) ds es : is_op a ds es -> is_op b ds es -> bonds_pos a -> bonds_pos b ->
  exists aa p s, madj a = Ok aa /\ mdot aa b (AInt (-1) 0) = Ok p /\ minner a b = Ok s /\ mtrace p (PTAll 0 1) = Ok (get s []).
Proof.
  intros Ha Hb Pa Pb. destruct (adj_op a _ _ Ha) as (aa & E1 & O1 & _ & V1). destruct (dot_op aa b _ _ _ O1 Hb) as (p & E2 & O2 & _ & V2). destruct (inner_op a b _ _ Ha Hb Pa Pb) as (s & E3 & V3).
  exists aa, p, s. repeat (split; [assumption|]). rewrite (trace_op p es O2), V3. f_equal. rewrite msum_swap. apply msum_ext. intros j Hj. rewrite V2 by assumption. apply msum_ext. intros i Hi. rewrite V1 by assumption. reflexivity.
Qed.
Print Assumptions C86_hilbert_schmidt.
(** The numbers tr(h rho) of C85 are what trace and dot compute. *)
Theorem C86_trace_prod (K : StarRing) (h r : ltens K) d : is_op h (repeat d (llen h)) (repeat d (llen h)) -> is_op r (repeat d (llen h)) (repeat d (llen h)) ->
  exists p, mdot h r (AInt (-1) 0) = Ok p /\ mtrace p (PTAll 0 1) = Ok (trace_prod d h r).
Proof.
  intros Hh Hr. destruct (dot_op h r _ _ _ Hh Hr) as (p & E & O & _ & V). exists p. split; [exact E|]. rewrite (trace_op p _ O). f_equal. apply msum_ext. intros is Hi. apply V; assumption.
Qed.
Print Assumptions C86_trace_prod.

(** dot distributes over sums and respects scalar factors, the trace is linear. *)
Lemma add_op (K : StarRing) (a b : ltens K) ds es : is_op a ds es -> is_op b ds es ->
  exists s, madd a b = Ok s /\ is_op s ds es /\ forall is js, inr is ds -> inr js es -> entry s (pairs is js) = (entry a (pairs is js) + entry b (pairs is js))%K.
Proof.
  intros (Ha & L & Sa) (Hb & _ & Sb). destruct (C05_add_entrywise K a b Ha Hb ltac:(congruence)) as (s & E & Hs & Ss & _ & _ & _ & V). exists s. split; [exact E|].
  split; [split; [exact Hs|]; split; [exact L|congruence]|]. intros is js Hi Hj. apply V. rewrite Sa. apply pairs_inr; assumption.
Qed.
Lemma mul_op (K : StarRing) (a : ltens K) f ds es : is_op a ds es -> cform_ok a ->
  exists s, mmul a f = Ok s /\ is_op s ds es /\ forall is js, inr is ds -> inr js es -> entry s (pairs is js) = (f * entry a (pairs is js))%K.
Proof.
  intros (Ha & L & Sa) Hc. destruct (C06_mul_entrywise K a f Ha Hc) as (s & E & Hs & Ss & _ & _ & _ & V). exists s. split; [exact E|].
  split; [split; [exact Hs|]; split; [exact L|congruence]|]. intros is js Hi Hj. apply V. rewrite Sa. apply pairs_inr; assumption.
Qed.
Theorem C86_distributive (K : StarRing) (a a' b b' : ltens K) ds es fs : is_op a ds es -> is_op a' ds es -> is_op b es fs -> is_op b' es fs ->
  exists sa sb ab a'b ab' l l' r r', madd a a' = Ok sa /\ madd b b' = Ok sb /\
    mdot a b (AInt (-1) 0) = Ok ab /\ mdot a' b (AInt (-1) 0) = Ok a'b /\ mdot a b' (AInt (-1) 0) = Ok ab' /\
    mdot sa b (AInt (-1) 0) = Ok l /\ madd ab a'b = Ok l' /\ same_op l l' ds fs /\
    mdot a sb (AInt (-1) 0) = Ok r /\ madd ab ab' = Ok r' /\ same_op r r' ds fs.
Proof.
  intros Ha Ha' Hb Hb'. destruct (add_op K a a' _ _ Ha Ha') as (sa & E1 & O1 & V1). destruct (add_op K b b' _ _ Hb Hb') as (sb & E2 & O2 & V2).
  destruct (dot_op a b _ _ _ Ha Hb) as (ab & E3 & O3 & _ & V3). destruct (dot_op a' b _ _ _ Ha' Hb) as (a'b & E4 & O4 & _ & V4). destruct (dot_op a b' _ _ _ Ha Hb') as (ab' & E5 & O5 & _ & V5).
  destruct (dot_op sa b _ _ _ O1 Hb) as (l & E6 & O6 & _ & V6). destruct (add_op K ab a'b _ _ O3 O4) as (l' & E7 & O7 & V7).
  destruct (dot_op a sb _ _ _ Ha O2) as (r & E8 & O8 & _ & V8). destruct (add_op K ab ab' _ _ O3 O5) as (r' & E9 & O9 & V9).
  exists sa, sb, ab, a'b, ab', l, l', r, r'. repeat (split; [assumption|]). split.
  - intros is ks Hi Hk. rewrite V6, V7, V3, V4 by assumption. rewrite <- msum_add. apply msum_ext. intros js Hj. rewrite V1 by assumption. apply (Rdistr_l (k_ring K)).
  - split; [assumption|]. split; [assumption|]. intros is ks Hi Hk. rewrite V8, V9, V3, V5 by assumption. rewrite <- msum_add. apply msum_ext. intros js Hj. rewrite V2 by assumption.
    rewrite (Rmul_comm (k_ring K)), (Rdistr_l (k_ring K)). f_equal; apply (Rmul_comm (k_ring K)).
Qed.
Print Assumptions C86_distributive.
Theorem C86_trace_linear (K : StarRing) (a b : ltens K) f ds : is_op a ds ds -> is_op b ds ds -> cform_ok a ->
  exists s m t u, madd a b = Ok s /\ mmul a f = Ok m /\ mtrace a (PTAll 0 1) = Ok t /\ mtrace b (PTAll 0 1) = Ok u /\
    mtrace s (PTAll 0 1) = Ok (t + u)%K /\ mtrace m (PTAll 0 1) = Ok (f * t)%K.
Proof.
  intros Ha Hb Hc. destruct (add_op K a b _ _ Ha Hb) as (s & E1 & O1 & V1). destruct (mul_op K a f _ _ Ha Hc) as (m & E2 & O2 & V2).
  exists s, m, (msum ds (fun is => entry a (pairs is is))), (msum ds (fun is => entry b (pairs is is))). split; [exact E1|]. split; [exact E2|]. split; [apply trace_op; exact Ha|]. split; [apply trace_op; exact Hb|].
  rewrite (trace_op s ds O1), (trace_op m ds O2). split; f_equal.
  - rewrite <- msum_add. apply msum_ext. intros is Hi. apply V1; assumption.
  - rewrite <- msum_mul_l. apply msum_ext. intros is Hi. apply V2; assumption.
Qed.
Print Assumptions C86_trace_linear.
(** Tensor products: dot works factor by factor, and the trace is the product of the traces. *)
Lemma chain_op (K : StarRing) (a c : ltens K) ds es ds' es' : is_op a ds es -> is_op c ds' es' ->
  exists z, mchain [a; c] = Ok z /\ is_op z (ds ++ ds') (es ++ es') /\
    forall is js is' js', inr is ds -> inr js es -> inr is' ds' -> inr js' es' -> entry z (pairs (is ++ is') (js ++ js')) = (entry a (pairs is js) * entry c (pairs is' js'))%K.
Proof.
  intros (Ha & La & Sa) (Hc & Lc & Sc). destruct (C12_chain K [a; c] ltac:(discriminate) ltac:(repeat constructor; assumption || apply Ha || apply Hc)) as (z & E & Hz & _ & Sz & _ & V).
  exists z. split; [exact E|]. split.
  - split; [exact Hz|]. split; [rewrite !app_length; congruence|]. rewrite Sz. cbn [flat_map]. rewrite app_nil_r, Sa, Sc. symmetry. apply PfStates.pairs_app. exact La.
  - intros is js is' js' Hi Hj Hi' Hj'. assert (L : length is = length js) by (rewrite (inr_length _ _ Hi), (inr_length _ _ Hj); exact La).
    rewrite PfStates.pairs_app by exact L. replace (pairs is js ++ pairs is' js') with (concat [pairs is js; pairs is' js']) by (cbn; rewrite app_nil_r; reflexivity).
    rewrite V.
    + cbn [zip2 kprod fold_right]. rewrite (Rmul_comm (k_ring K) (entry c _) k1), (Rmul_1_l (k_ring K)). reflexivity.
    + constructor; [rewrite Sa; apply pairs_inr; assumption|]. constructor; [rewrite Sc; apply pairs_inr; assumption|constructor].
Qed.
Lemma same_op_split (K : StarRing) (l r : ltens K) ds ds' fs fs' :
  (forall is ks is' ks', inr is ds -> inr ks fs -> inr is' ds' -> inr ks' fs' -> entry l (pairs (is ++ is') (ks ++ ks')) = entry r (pairs (is ++ is') (ks ++ ks'))) ->
  same_op l r (ds ++ ds') (fs ++ fs').
Proof. intros H i k Hi Hk. apply inr_app_inv in Hi. destruct Hi as (i1 & i2 & -> & H1 & H2). apply inr_app_inv in Hk. destruct Hk as (k1 & k2 & -> & H3 & H4). apply H; assumption. Qed.
Theorem C86_tensor (K : StarRing) (a b c d : ltens K) ds es fs ds' es' fs' : is_op a ds es -> is_op b es fs -> is_op c ds' es' -> is_op d es' fs' ->
  exists ac bd ab cd l r, mchain [a; c] = Ok ac /\ mchain [b; d] = Ok bd /\ mdot a b (AInt (-1) 0) = Ok ab /\ mdot c d (AInt (-1) 0) = Ok cd /\
    mdot ac bd (AInt (-1) 0) = Ok l /\ mchain [ab; cd] = Ok r /\ same_op l r (ds ++ ds') (fs ++ fs').
Proof.
  intros Ha Hb Hc Hd. destruct (chain_op K a c _ _ _ _ Ha Hc) as (ac & E1 & O1 & V1). destruct (chain_op K b d _ _ _ _ Hb Hd) as (bd & E2 & O2 & V2).
  destruct (dot_op a b _ _ _ Ha Hb) as (ab & E3 & O3 & _ & V3). destruct (dot_op c d _ _ _ Hc Hd) as (cd & E4 & O4 & _ & V4).
  destruct (dot_op ac bd _ _ _ O1 O2) as (l & E5 & O5 & _ & V5). destruct (chain_op K ab cd _ _ _ _ O3 O4) as (r & E6 & O6 & V6).
  exists ac, bd, ab, cd, l, r. repeat (split; [assumption|]). apply same_op_split. intros is ks is' ks' Hi Hk Hi' Hk'.
  rewrite V5 by (apply inr_app; assumption). rewrite V6, V3, V4 by assumption. rewrite msum_app, <- msum_mul_r. apply msum_ext. intros js Hj. rewrite <- msum_mul_l. apply msum_ext. intros js' Hj'.
  rewrite V1, V2 by assumption. rewrite <- !(Rmul_assoc (k_ring K)). f_equal. rewrite !(Rmul_assoc (k_ring K)). f_equal. apply (Rmul_comm (k_ring K)).
Qed.
Print Assumptions C86_tensor.
Theorem C86_trace_tensor (K : StarRing) (a c : ltens K) ds ds' : is_op a ds ds -> is_op c ds' ds' ->
  exists z t u, mchain [a; c] = Ok z /\ mtrace a (PTAll 0 1) = Ok t /\ mtrace c (PTAll 0 1) = Ok u /\ mtrace z (PTAll 0 1) = Ok (t * u)%K.
Proof.
  intros Ha Hc. destruct (chain_op K a c _ _ _ _ Ha Hc) as (z & E & O & V). exists z, (msum ds (fun is => entry a (pairs is is))), (msum ds' (fun is => entry c (pairs is is))).
  split; [exact E|]. split; [apply trace_op; exact Ha|]. split; [apply trace_op; exact Hc|]. rewrite (trace_op z _ O). f_equal. rewrite msum_app, <- msum_mul_r. apply msum_ext. intros is Hi.
  rewrite <- msum_mul_l. apply msum_ext. intros js Hj. apply V; assumption.
Qed.
Print Assumptions C86_trace_tensor.

(** A rectangular operator on two sites, from dimensions 3, 1 to dimensions 2, 2. *)
Definition ex_rect : ltens GZ :=
  mkLt [mk [1;2;3;2] [g 1 0; g 0 1; g 2 0; g 1 1; g 0 0; g 3 0; g 0 (-1); g 1 0; g 2 1; g 0 0; g 1 0; g 0 2];
        mk [2;2;1;1] [g 1 0; g 0 1; g 1 1; g 2 0]] 0 2.
Definition ex_v : ltens GZ := mkLt [mk [1;3;1] [g 1 0; g 0 1; g 2 0]; mk [1;1;1] [g 1 1]] 0 2.
Definition ex_w : ltens GZ := mkLt [mk [1;2;1] [g 1 2; g 0 1]; mk [1;2;1] [g 1 1; g 3 0]] 0 2.
Example C86_ex : is_op ex_rect [2; 2] [3; 1] /\ is_vec ex_v [3; 1] /\ is_vec ex_w [2; 2] /\ bonds_pos ex_rect /\ bonds_pos ex_v /\ bonds_pos ex_w /\
  match madj ex_rect with
  | Ok aa =>
      match mdot ex_rect aa (AInt (-1) 0), mdot aa ex_rect (AInt (-1) 0), minner ex_rect ex_rect with
      | Ok p, Ok q, Ok s => mshape p = [[2; 2]; [2; 2]] /\ mshape q = [[3; 3]; [1; 1]] /\ mtrace p (PTAll 0 1) = Ok (get s []) /\ mtrace q (PTAll 0 1) = Ok (get s []) /\ get s [] <> k0
      | _, _, _ => False end /\
      match mdot ex_rect ex_v (AInt (-1) 0), mdot aa ex_w (AInt (-1) 0) with
      | Ok av, Ok aw => match minner av ex_w, minner ex_v aw with Ok s, Ok t => get s [] = get t [] /\ get s [] <> k0 | _, _ => False end
      | _, _ => False end
  | Err _ => False end.
Proof.
  split; [split; [split; [discriminate|repeat constructor; cbn; lia]|split; reflexivity]|].
  split; [split; [split; [discriminate|repeat constructor; cbn; lia]|reflexivity]|].
  split; [split; [split; [discriminate|repeat constructor; cbn; lia]|reflexivity]|].
  split; [repeat constructor; cbn; lia|]. split; [repeat constructor; cbn; lia|]. split; [repeat constructor; cbn; lia|].
  vm_compute. repeat split; discriminate.
Qed.
Example C86_tensor_ex : is_op (Props_Build.ex_h 1) [2; 2] [2; 2] /\ is_op ex_o [2; 2; 2] [2; 2; 2] /\ cform_ok ex_o /\
  match mchain [Props_Build.ex_h 1; ex_o], mtrace (Props_Build.ex_h 1) (PTAll 0 1), mtrace ex_o (PTAll 0 1) with
  | Ok z, Ok t, Ok u => mtrace z (PTAll 0 1) = Ok (kmul t u) /\ kmul t u <> k0 | _, _, _ => False end.
Proof.
  split; [split; [split; [discriminate|repeat constructor; cbn; lia]|split; reflexivity]|]. split; [split; [apply ex_ok; cbn; auto|split; reflexivity]|].
  split; [apply cform_okb_ok; reflexivity|]. vm_compute. split; [reflexivity|discriminate].
Qed.
