(** Reductions of states are states. *)
From Verif Require Export PfKronPovm PfRedMpo PfStates2 PfMpdo PfBounds.
Open Scope nat_scope.

Lemma skipn_skipn' (A : Type) n m (l : list A) : skipn n (skipn m l) = skipn (m + n) l.
Proof. revert l. induction m as [|m IH]; intros l; [reflexivity|]. destruct l as [|a l]; [rewrite !skipn_nil; reflexivity|]. cbn [skipn Nat.add]. apply IH. Qed.

Section Red.
Context {K : StarRing}.
Add Ring Kr : (k_ring K).

(** The dimensions of the sites s, ..., e - 1. *)
Definition win (ds : list nat) (w : nat * nat) : list nat := firstn (snd w - fst w) (skipn (fst w) ds).
Definition hermitian (x : ltens K) (ds : list nat) : Prop := forall is js, inr is ds -> inr js ds -> entry x (pairs js is) = kconj (entry x (pairs is js)).
Definition trace_of (x : ltens K) (ds : list nat) : K := msum ds (fun is => entry x (pairs is is)).

Lemma diagd_squares ds : diagd (squares ds) = ds.
Proof. unfold diagd, squares. rewrite map_map. rewrite <- (map_id ds) at 2. apply map_ext. intros d. cbn. apply Nat.min_id. Qed.
Lemma win_squares ds (w : nat * nat) : firstn (snd w - fst w) (skipn (fst w) (squares ds)) = squares (win ds w).
Proof. unfold squares, win. rewrite skipn_map, firstn_map. reflexivity. Qed.
Lemma win_split ds (w : nat * nat) : fst w <= snd w -> ds = firstn (fst w) ds ++ win ds w ++ skipn (snd w) ds.
Proof.
  destruct w as [s e]. unfold win. cbn [fst snd]. intros H. rewrite <- (firstn_skipn s ds) at 1. f_equal. rewrite <- (firstn_skipn (e - s) (skipn s ds)) at 1. f_equal.
  rewrite skipn_skipn'. f_equal. lia.
Qed.
Lemma pairs_app3 (ks is ms js : list nat) : length is = length js -> pairs ks ks ++ pairs is js ++ pairs ms ms = pairs (ks ++ is ++ ms) (ks ++ js ++ ms).
Proof. intros L. rewrite PfStates.pairs_app by reflexivity. rewrite PfStates.pairs_app by exact L. reflexivity. Qed.

(** Entries of a partial trace of a square operator *)
Lemma ptrace_sq (x z : ltens K) ds w : mshape x = squares ds -> is_ptrace x w z ->
  mpa_ok z /\ mshape z = squares (win ds w) /\ forall is js, inr is (win ds w) -> inr js (win ds w) ->
  entry z (pairs is js) = msum (firstn (fst w) ds) (fun ks => msum (skipn (snd w) ds) (fun ms => entry x (pairs (ks ++ is ++ ms) (ks ++ js ++ ms)))).
Proof.
  intros Sx (Hz & Sz & _ & _ & V). rewrite Sx in Sz, V. rewrite win_squares in Sz. split; [exact Hz|]. split; [exact Sz|]. intros is js Hi Hj.
  rewrite V by (rewrite Sz; apply pairs_valid_sq; assumption). rewrite diagd_squares. apply msum_ext. intros ks _. apply msum_ext. intros ms _.
  f_equal. apply pairs_app3. rewrite (inr_length _ _ Hi), (inr_length _ _ Hj). reflexivity.
Qed.
Lemma ptrace_trace (x z : ltens K) ds w : mshape x = squares ds -> fst w <= snd w -> is_ptrace x w z -> trace_of z (win ds w) = trace_of x ds.
Proof.
  intros Sx Hw P. destruct (ptrace_sq x z ds w Sx P) as (_ & _ & V). unfold trace_of. rewrite (win_split ds w Hw) at 2. rewrite msum_app.
  transitivity (msum (win ds w) (fun is => msum (firstn (fst w) ds) (fun ks => msum (skipn (snd w) ds) (fun ms => entry x (pairs (ks ++ is ++ ms) (ks ++ is ++ ms)))))).
  - apply msum_ext. intros is Hi. apply V; assumption.
  - rewrite msum_swap. apply msum_ext. intros ks _. rewrite msum_app. reflexivity.
Qed.
Lemma env_inr ds w ks is ms : fst w <= snd w -> inr ks (firstn (fst w) ds) -> inr is (win ds w) -> inr ms (skipn (snd w) ds) -> inr (ks ++ is ++ ms) ds.
Proof. intros Hw H1 H2 H3. rewrite (win_split ds w Hw). apply inr_app; [exact H1|]. apply inr_app; assumption. Qed.
Lemma ptrace_hermitian (x z : ltens K) ds w : mshape x = squares ds -> fst w <= snd w -> is_ptrace x w z -> hermitian x ds -> hermitian z (win ds w).
Proof.
  intros Sx Hw P H is js Hi Hj. destruct (ptrace_sq x z ds w Sx P) as (_ & _ & V). rewrite !V by assumption. rewrite msum_conj. apply msum_ext. intros ks Hk. rewrite msum_conj. apply msum_ext. intros ms Hm.
  apply H; apply (env_inr ds w); assumption.
Qed.
(** The reduction of a reduction *)
Lemma ptrace_nested (x z u y : ltens K) ds a b c d : mshape x = squares ds -> a <= b <= length ds -> c <= d <= b - a ->
  is_ptrace x (a, b) z -> is_ptrace z (c, d) u -> is_ptrace x (a + c, a + d) y ->
  mshape u = mshape y /\ forall is js, inr is (win ds (a + c, a + d)) -> inr js (win ds (a + c, a + d)) -> entry u (pairs is js) = entry y (pairs is js).
Proof.
  intros Sx Hab Hcd Pz Pu Py. destruct (ptrace_sq x z ds _ Sx Pz) as (_ & Sz & Vz). destruct (ptrace_sq z u _ _ Sz Pu) as (_ & Su & Vu). destruct (ptrace_sq x y ds _ Sx Py) as (_ & Sy & Vy).
  set (ws := win ds (a, b)) in *.
  assert (Ew : win ws (c, d) = win ds (a + c, a + d)).
  { unfold ws, win. cbn [fst snd]. rewrite skipn_firstn_comm, firstn_firstn, skipn_skipn'. replace (Nat.min (d - c) (b - a - c)) with (a + d - (a + c)) by lia. f_equal. }
  assert (E1 : firstn (a + c) ds = firstn a ds ++ firstn c ws).
  { unfold ws, win. cbn [fst snd]. rewrite firstn_firstn. replace (Nat.min c (b - a)) with c by lia. rewrite <- (firstn_skipn a ds) at 1. rewrite firstn_app.
    rewrite firstn_length. replace (Nat.min a (length ds)) with a by lia. f_equal; [rewrite firstn_firstn; f_equal; lia|f_equal; lia]. }
  assert (E2 : skipn (a + d) ds = skipn d ws ++ skipn b ds).
  { unfold ws, win. cbn [fst snd]. rewrite skipn_firstn_comm, skipn_skipn'. rewrite <- (firstn_skipn (b - a - d) (skipn (a + d) ds)) at 1. f_equal. rewrite skipn_skipn'. f_equal. lia. }
  split; [congruence|]. rewrite Ew in *. intros is js Hi Hj. rewrite Vu, Vy by assumption. cbn [fst snd]. rewrite E1, E2, msum_app.
  transitivity (msum (firstn c ws) (fun k2 => msum (firstn a ds) (fun k1 => msum (skipn d ws) (fun m1 => msum (skipn b ds) (fun m2 => entry x (pairs ((k1 ++ k2) ++ is ++ m1 ++ m2) ((k1 ++ k2) ++ js ++ m1 ++ m2))))))).
  - apply msum_ext. intros k2 H2. rewrite msum_swap. apply msum_ext. intros m1 H1.
    assert (I : forall l, inr l (win ds (a + c, a + d)) -> inr (k2 ++ l ++ m1) ws) by (intros l Hl; apply (env_inr ws (c, d)); cbn [fst snd]; [lia|assumption|rewrite Ew; exact Hl|assumption]).
    rewrite Vz by (apply I; assumption). cbn [fst snd]. apply msum_ext. intros k1 _. apply msum_ext. intros m2 _. rewrite <- !app_assoc. reflexivity.
  - rewrite msum_swap. apply msum_ext. intros k1 _. apply msum_ext. intros k2 _. symmetry. rewrite msum_app. reflexivity.
Qed.
End Red.

(** Positivity *)
Add Ring Cr : (k_ring CS).
Definition op_positive (x : ltens CS) (ds : list nat) : Prop := mpsd ds (fun is js => entry x (pairs is js)).
Lemma gram_hermitian (x : ltens CS) ds : gram_rho ds (fun is js => entry x (pairs is js)) -> hermitian x ds.
Proof. intros (cs & w & Hw) is js Hi Hj. rewrite !Hw by assumption. rewrite msum_conj. apply msum_ext. intros c _. rewrite kconj_mul, kconj_invol. ring. Qed.
Lemma positive_hermitian (x : ltens CS) ds : op_positive x ds -> hermitian x ds.
Proof. intros H. apply gram_hermitian, mpsd_gram, H. Qed.

Lemma ptrace_positive (x z : ltens CS) ds w : mshape x = squares ds -> fst w <= snd w -> is_ptrace x w z -> op_positive x ds -> op_positive z (win ds w).
Proof.
  intros Sx Hw P H. destruct (ptrace_sq x z ds w Sx P) as (_ & _ & V). apply gram_mpsd. destruct (mpsd_gram _ _ H) as (cs & u & Hu).
  set (A := firstn (fst w) ds). set (B := skipn (snd w) ds).
  exists (A ++ B ++ cs), (fun c is => u (skipn (length B) (skipn (length A) c)) (firstn (length A) c ++ is ++ firstn (length B) (skipn (length A) c))).
  intros is js Hi Hj. rewrite V by assumption. rewrite msum_app. apply msum_ext. intros ks Hk. rewrite msum_app. apply msum_ext. intros ms Hm.
  rewrite Hu by (apply (env_inr ds w); assumption). apply msum_ext. intros c _. pose proof (inr_length _ _ Hk) as Lk. pose proof (inr_length _ _ Hm) as Lm.
  rewrite !skipn_len_app, !firstn_len_app by auto. reflexivity.
Qed.
Lemma mps_reduction_positive (x m : ltens CS) w : mps_reduction x w m -> op_positive m (win (leg1 (mshape x)) w).
Proof.
  intros (_ & _ & V). apply gram_mpsd. set (ds := leg1 (mshape x)) in *. set (A := firstn (fst w) ds) in *. set (B := skipn (snd w) ds) in *.
  exists (A ++ B), (fun c is => entry x (singles (firstn (length A) c ++ is ++ skipn (length A) c))).
  intros is js Hi Hj. rewrite V by assumption. rewrite msum_app. apply msum_ext. intros ks Hk. apply msum_ext. intros ms Hm. pose proof (inr_length _ _ Hk) as Lk.
  rewrite !skipn_len_app, !firstn_len_app by auto. reflexivity.
Qed.
Lemma dmat_positive (x z : ltens CS) ds : (forall is js, inr is ds -> inr js ds -> entry z (pairs is js) = dmat x is js) -> op_positive z ds.
Proof. intros V. apply gram_mpsd. exists (leg2 (mshape x)), (fun c is => entry x (pairs is c)). intros is js Hi Hj. rewrite V by assumption. reflexivity. Qed.
