(** MPOs as linear operators: products, adjoints and traces. *)
From Verif Require Export PfContract PfMpdo PfEig3 PfHistory PfInner.
Open Scope nat_scope.

Section Oper.
Context {K : StarRing}.
Add Ring Kr : (k_ring K).

(** An operator from the space with site dimensions [es] to the one with site dimensions [ds],
    and a vector of the space with site dimensions [ds]. *)
Definition is_op (x : ltens K) (ds es : list nat) : Prop := mpa_ok x /\ length ds = length es /\ mshape x = pairs ds es.
Definition is_vec (v : ltens K) (ds : list nat) : Prop := mpa_ok v /\ mshape v = singles ds.

Lemma pairs_head is : forall js, length is = length js -> pairs is js = zip2 head_of (singles js) (singles is).
Proof. induction is as [|n ns IH]; intros [|h hs] L; try discriminate; [reflexivity|]. cbn. f_equal. apply IH; auto. Qed.
Lemma forms_last (ds es : list nat) : length ds = length es -> Forall2 (site_form [(-1)%Z] tail_of) (singles ds) (singles es).
Proof. intros L. apply forms2; [rewrite !singles_len; exact L|]. intros a c _ Hc. destruct (in_singles _ _ Hc) as [e ->]. apply form_last. Qed.
Lemma forms_first (A : list (list nat)) (es : list nat) : length A = length es -> Forall2 (site_form [0%Z] head_of) A (singles es).
Proof. intros L. apply forms2; [rewrite singles_len; exact L|]. intros a c _ Hc. destruct (in_singles _ _ Hc) as [e ->]. apply form_first. Qed.

(** ** Product of two operators *)
Lemma dot_op (x y : ltens K) ds es fs : is_op x ds es -> is_op y es fs ->
  exists z, mdot x y (AInt (-1) 0) = Ok z /\ is_op z ds fs /\ ranks z = zip2 Nat.mul (ranks x) (ranks y) /\
    forall is ks, inr is ds -> inr ks fs -> entry z (pairs is ks) = msum es (fun js => entry x (pairs is js) * entry y (pairs js ks))%K.
Proof.
  intros (Hx & Lx & Sx) (Hy & Ly & Sy).
  destruct (mdot_by x y (AInt (-1) 0) tail_of head_of (singles ds) (singles fs) (singles es) Hx Hy) as (z & Ez & Hz & Sz & Rz & _ & Az).
  { rewrite Sx. apply pairs_tail. exact Lx. }
  { rewrite Sy. apply pairs_head. exact Ly. }
  { apply forms_last. exact Lx. }
  { apply forms_first. rewrite singles_len. congruence. }
  exists z. split; [exact Ez|]. split; [split; [exact Hz|]; split; [congruence|rewrite Sz; apply app_pairs; congruence]|]. split; [exact Rz|].
  intros is ks Hi Hk. pose proof (inr_length _ _ Hi) as Li. pose proof (inr_length _ _ Hk) as Lk.
  rewrite <- app_pairs by congruence. rewrite Az by (apply singles_valid; assumption). rewrite msums_singles. apply msum_ext. intros js Hj. pose proof (inr_length _ _ Hj) as Lj.
  rewrite <- pairs_tail by congruence. rewrite <- pairs_head by congruence. reflexivity.
Qed.
(** ** Operator applied to a vector *)
Lemma dot_vec (x v : ltens K) ds es : is_op x ds es -> is_vec v es ->
  exists z, mdot x v (AInt (-1) 0) = Ok z /\ is_vec z ds /\ ranks z = zip2 Nat.mul (ranks x) (ranks v) /\
    forall is, inr is ds -> entry z (singles is) = msum es (fun js => entry x (pairs is js) * entry v (singles js))%K.
Proof.
  intros (Hx & Lx & Sx) (Hv & Sv).
  assert (N : forall l : list nat, singles l = zip2 head_of (map (fun _ => []) l) (singles l)) by (clear; induction l as [|a l IH]; [reflexivity|cbn; f_equal; exact IH]).
  assert (M : forall l m : list nat, length l = length m -> zip2 (@app nat) (singles l) (map (fun _ => []) m) = singles l)
    by (clear; induction l as [|a l IH]; intros [|b m] L; try discriminate; [reflexivity|]; cbn; f_equal; apply IH; auto).
  assert (E0 : forall l m : list nat, length l = length m -> map (fun _ : nat => @nil nat) l = map (fun _ => []) m)
    by (clear; induction l as [|a l IH]; intros [|b m] L; try discriminate; [reflexivity|]; cbn; f_equal; apply IH; auto).
  destruct (mdot_by x v (AInt (-1) 0) tail_of head_of (singles ds) (map (fun _ => []) es) (singles es) Hx Hv) as (z & Ez & Hz & Sz & Rz & _ & Az).
  { rewrite Sx. apply pairs_tail. exact Lx. }
  { rewrite Sv. apply N. }
  { apply forms_last. exact Lx. }
  { apply forms_first. apply map_length. }
  exists z. split; [exact Ez|]. split; [split; [exact Hz|rewrite Sz; apply M; exact Lx]|]. split; [exact Rz|].
  intros is Hi. pose proof (inr_length _ _ Hi) as Li.
  rewrite <- (M is es) by congruence. rewrite Az; [|apply singles_valid; assumption|clear; induction es; cbn; constructor; [constructor|assumption]].
  rewrite msums_singles. apply msum_ext. intros js Hj. pose proof (inr_length _ _ Hj) as Lj.
  rewrite <- pairs_tail by congruence. rewrite (E0 es js) by congruence. rewrite <- N. reflexivity.
Qed.
(** ** Adjoint *)
Lemma adj_op (x : ltens K) ds es : is_op x ds es ->
  exists z, madj x = Ok z /\ is_op z es ds /\ ranks z = ranks x /\ forall is js, inr is es -> inr js ds -> entry z (pairs is js) = kconj (entry x (pairs js is)).
Proof.
  intros (Hx & Lx & Sx). destruct (madj_spec x Hx) as (z & Ez & Hz & Sz & Rz & _ & Az). exists z. split; [exact Ez|].
  assert (Sz' : mshape z = pairs es ds) by (rewrite Sz, Sx; apply zip2_rev_pairs).
  split; [split; [exact Hz|]; split; [congruence|exact Sz']|]. split; [exact Rz|]. intros is js Hi Hj.
  assert (V : valid_idx (pairs js is) (mshape x)) by (rewrite Sx; apply pairs_inr; assumption).
  rewrite !entry_amp; [|exact Hx|exact V|exact Hz|rewrite Sz'; apply pairs_inr; auto].
  rewrite <- Az by exact V. rewrite zip2_rev_pairs. reflexivity.
Qed.
(** ** Trace *)
Lemma trace_op (x : ltens K) ds : is_op x ds ds -> mtrace x (PTAll 0 1) = Ok (msum ds (fun is => entry x (pairs is is))).
Proof. intros (Hx & _ & Sx). apply mtrace_sq; [exact Hx|rewrite Sx; symmetry; apply pairs_diag]. Qed.
Lemma inner_vec (v w : ltens K) ds : is_vec v ds -> is_vec w ds -> bonds_pos v -> bonds_pos w ->
  exists a, minner v w = Ok a /\ get a [] = msum ds (fun is => kconj (entry v (singles is)) * entry w (singles is))%K.
Proof.
  intros (Hv & Sv) (Hw & Sw) Pv Pw. destruct (minner_spec v w Hv Hw Pv Pw ltac:(congruence)) as (a & Ea & _ & _ & Va). exists a. split; [exact Ea|].
  rewrite Va, Sv, msums_singles. apply msum_ext. intros is Hi. rewrite !entry_amp by (auto; unfold valid_idx; rewrite ?Sv, ?Sw; apply singles_valid; exact Hi). reflexivity.
Qed.
Lemma inner_op (v w : ltens K) ds es : is_op v ds es -> is_op w ds es -> bonds_pos v -> bonds_pos w ->
  exists a, minner v w = Ok a /\ get a [] = msum ds (fun is => msum es (fun js => kconj (entry v (pairs is js)) * entry w (pairs is js)))%K.
Proof.
  intros (Hv & L & Sv) (Hw & _ & Sw) Pv Pw. destruct (minner_spec v w Hv Hw Pv Pw ltac:(congruence)) as (a & Ea & _ & _ & Va). exists a. split; [exact Ea|].
  assert (T : two_legs (pairs ds es) /\ leg1 (pairs ds es) = ds /\ leg2 (pairs ds es) = es).
  { clear - L. revert es L. induction ds as [|d ds IH]; intros [|e es] L; try discriminate; [repeat split; constructor|].
    injection L as L. destruct (IH es L) as (A & B & C). cbn. split; [constructor; [reflexivity|exact A]|]. unfold leg1, leg2, pairs in *. split; f_equal; assumption. }
  destruct T as (T & T1 & T2).
  rewrite Va, Sv, (msums_pairs _ _ T), T1, T2. apply msum_ext. intros is Hi. apply msum_ext. intros js Hj.
  rewrite !entry_amp by (auto; unfold valid_idx; rewrite ?Sv, ?Sw; apply pairs_inr; assumption). reflexivity.
Qed.
(** Operators are determined by their entries. *)
Definition same_op (x y : ltens K) (ds es : list nat) : Prop := forall is js, inr is ds -> inr js es -> entry x (pairs is js) = entry y (pairs is js).
End Oper.
