(** The sweeps of [eig], [eig_sum] and [_adapt_to] use the environments of the
    current tensors at every step. *)
From Verif Require Export PfLocality Linalg.
Open Scope nat_scope.

(** ** Specification: the same sweeps with environments computed from scratch *)
Section Gen.
Context {K : StarRing}.
Variable qr : nd K -> res (nd K * nd K).
Variables (V : Type) (n v : nat).
(** The local update of the sites [pos, pos + v) as a function of the current tensors. *)
Variable locl : ltens K -> nat -> res (V * list (nd K)).

Definition g_local (s : ltens K * option V) (pos : nat) : res (ltens K * option V) :=
  do p <- locl (fst s) pos;
  do x' <- lt_update_slice (fst s) (mkSlice (Some (Z.of_nat pos)) (Some (Z.of_nat (pos + v))) None) (snd p) (COne None);
  Ok (x', Some (fst p)).
Definition g_ltr (s : ltens K * option V) (pos : nat) : res (ltens K * option V) :=
  do x <- (if Nat.ltb 0 pos then canonicalize qr (fst s) (CAInt (Z.of_nat pos)) CANone else Ok (fst s));
  g_local (x, snd s) pos.
Definition g_rtl (s : ltens K * option V) (pos : nat) : res (ltens K * option V) :=
  do x <- canonicalize qr (fst s) CANone (CAInt (Z.of_nat (pos + v)));
  g_local (x, snd s) pos.
Definition g_one (s : ltens K * option V) (num : nat) : res (ltens K * option V) :=
  do s1 <- foldM g_ltr (if Nat.ltb 0 num then seq 1 (n - v) else seq 0 (n - v + 1)) s;
  foldM g_rtl (rev (seq 0 (n - v))) s1.
Definition g_sweeps (num : nat) (s : ltens K * option V) : res (ltens K * option V) :=
  foldM g_one (seq 0 num) s.
End Gen.

Section Ref.
Context {K : StarRing}.
Variable qr : nd K -> res (nd K * nd K).
Variables (E V : Type) (n v : nat).
Variable ladd : nat -> E -> nd K -> res E.
Variable radd : nat -> E -> nd K -> res E.
Variable solve : nat -> E -> list (nd K) -> E -> res (V * list (nd K)).
Variable ones : E.

(** All sites to the left of [pos], all sites from [pos + v] on. *)
Definition lenv (ts : list (nd K)) (pos : nat) : res E :=
  foldM (fun e k => do t <- pyget ts (Z.of_nat k); ladd k e t) (seq 0 pos) ones.
Definition renv (ts : list (nd K)) (pos : nat) : res E :=
  foldM (fun e k => do t <- pyget ts (Z.of_nat k); radd k e t) (rev (seq (pos + v) (n - v - pos))) ones.

(** The local update with the environments of the current tensors. *)
Definition fresh_locl (x : ltens K) (pos : nat) : res (V * list (nd K)) :=
  do l <- lenv (lts x) pos;
  do r <- renv (lts x) pos;
  solve pos l (pyslice (lts x) (Z.of_nat pos) (Z.of_nat (pos + v))) r.
Definition ref_local := g_local V v fresh_locl.
Definition ref_ltr := g_ltr qr V v fresh_locl.
Definition ref_rtl := g_rtl qr V v fresh_locl.
Definition ref_one := g_one qr V n v fresh_locl.
Definition ref_sweeps := g_sweeps qr V n v fresh_locl.
(** Before the sweeps: right-canonical form; the environment of all sites to the
    right of the first window exists. *)
Definition ref_prepare (x : ltens K) : res (ltens K) :=
  do z <- canonicalize qr x CANone (CAInt 1);
  do _ <- renv (lts z) 0;
  Ok z.
End Ref.

Lemma foldM_app {A S : Type} (f : S -> A -> res S) l1 l2 s : foldM f (l1 ++ l2) s = do s' <- foldM f l1 s; foldM f l2 s'.
Proof. revert s. induction l1 as [|a l1 IH]; intros s; [reflexivity|]. cbn [app foldM]. destruct (f s a); [apply IH|reflexivity]. Qed.
Lemma foldM_ext {A S : Type} (f g : S -> A -> res S) l s : (forall a s, In a l -> f s a = g s a) -> foldM f l s = foldM g l s.
Proof.
  revert s. induction l as [|a l IH]; intros s H; [reflexivity|]. cbn [foldM]. rewrite H by (left; reflexivity).
  destruct (g s a); [|reflexivity]. cbn [bind]. apply IH. intros; apply H; right; assumption.
Qed.

Section Fresh.
Context {K : StarRing}.
Variable qr : nd K -> res (nd K * nd K).
Variables (E V : Type) (n v : nat).
Variable ladd : nat -> E -> nd K -> res E.
Variable radd : nat -> E -> nd K -> res E.
Variable solve : nat -> E -> list (nd K) -> E -> res (V * list (nd K)).
Variable ones : E.
Hypotheses (Hv : 1 <= v) (Hn : v <= n).

Notation lenv := (lenv E ladd ones).
Notation renv := (renv E n v radd ones).
Notation st := (@sweep_st K E V).

Lemma lenv_S ts pos : lenv ts (S pos) = do e <- lenv ts pos; do t <- pyget ts (Z.of_nat pos); ladd pos e t.
Proof.
  unfold PfSweep.lenv. rewrite seq_S, foldM_app. cbn [Nat.add foldM]. destruct (foldM _ (seq 0 pos) ones) as [e|]; [|reflexivity]. cbn [bind].
  destruct (pyget ts (Z.of_nat pos)) as [t|]; [|reflexivity]. cbn [bind]. destruct (ladd pos e t); reflexivity.
Qed.
Lemma renv_S ts pos : pos < n - v ->
  renv ts pos = do e <- renv ts (S pos); do t <- pyget ts (Z.of_nat (pos + v)); radd (pos + v) e t.
Proof.
  intros H. unfold PfSweep.renv. replace (n - v - pos) with (S (n - v - S pos)) by lia. cbn [seq rev]. rewrite foldM_app.
  replace (S pos + v) with (S (pos + v)) by lia. cbn [foldM]. destruct (foldM _ (rev (seq (S (pos + v)) (n - v - S pos))) ones) as [e|]; [|reflexivity]. cbn [bind].
  destruct (pyget ts (Z.of_nat (pos + v))) as [t|]; [|reflexivity]. cbn [bind]. destruct (radd (pos + v) e t); reflexivity.
Qed.
Lemma lenv_agree a b xs ys pos : agree a b xs ys -> (Z.of_nat pos <= a)%Z -> lenv xs pos = lenv ys pos.
Proof.
  intros A H. apply foldM_ext. intros k e Hk. apply in_seq in Hk. rewrite (pyget_agree a b xs ys k A) by lia. reflexivity.
Qed.
Lemma renv_agree a b xs ys pos : agree a b xs ys -> (b <= Z.of_nat (pos + v))%Z -> renv xs pos = renv ys pos.
Proof.
  intros A H. apply foldM_ext. intros k e Hk. apply in_rev in Hk. apply in_seq in Hk. rewrite (pyget_agree a b xs ys k A) by lia. reflexivity.
Qed.

(** Cached environments [L[0..pos]] and [R[pos..]] are those of the current tensors. *)
Definition fresh (s : st) (pos : nat) : Prop :=
  length (lts (st_x s)) = n /\ length (st_l s) = n - v + 1 /\ length (st_r s) = n - v + 1 /\
  (forall k, k <= pos -> exists e, nth_error (st_l s) k = Some (Some e) /\ lenv (lts (st_x s)) k = Ok e) /\
  (forall k, pos <= k <= n - v -> exists e, nth_error (st_r s) k = Some (Some e) /\ renv (lts (st_x s)) k = Ok e).
Definition form_ok (s : st) : Prop := (0 <= lcan (st_x s))%Z /\ (rcan (st_x s) <= Z.of_nat n)%Z.
(** The invariants of the sweep to the right and to the left. *)
Definition inv_r (s : st) (pos : nat) : Prop := fresh s pos /\ form_ok s /\ (Z.of_nat pos <= lcan (st_x s))%Z.
Definition inv_l (s : st) (pos : nat) : Prop := fresh s pos /\ form_ok s /\ (rcan (st_x s) <= Z.of_nat (pos + v))%Z.

Definition view (s : st) : ltens K * option V := (st_x s, st_v s).
Definition rel (I : st -> Prop) (r : res st) (q : res (ltens K * option V)) : Prop :=
  match r with
  | Ok s => q = Ok (view s) /\ I s
  | Err e => q = Err e
  end.

Lemma getvec_some (l : list (option E)) k e : nth_error l k = Some (Some e) -> getvec l k = Ok e.
Proof. intros H. unfold getvec. rewrite H. reflexivity. Qed.

(** The local update. *)
Lemma local_fresh (s : st) pos : fresh s pos -> form_ok s -> pos <= n - v ->
  rel (fun s' => fresh s' pos /\ form_ok s' /\ (Z.min (Z.of_nat pos) (lcan (st_x s)) <= lcan (st_x s'))%Z /\
                 (rcan (st_x s') <= Z.max (Z.of_nat (pos + v)) (rcan (st_x s)))%Z)
      (sweep_local E V v solve s pos) (ref_local E V n v ladd radd solve ones (view s) pos).
Proof.
  intros (Lx & Ll & Lr & FL & FR) [F1 F2] Hp. unfold sweep_local, ref_local, g_local, fresh_locl, view. cbn [fst snd].
  destruct (FL pos (le_n _)) as (l & El & Gl). destruct (FR pos ltac:(lia)) as (r & Er & Gr).
  rewrite (getvec_some _ _ _ El), (getvec_some _ _ _ Er), Gl, Gr. cbn [bind].
  destruct (solve pos l _ r) as [[val us]|e]; [|reflexivity]. cbn [bind fst snd].
  destruct (lt_update_slice (st_x s) _ us (COne None)) as [x'|e] eqn:EU; [|reflexivity]. cbn [bind rel].
  split; [reflexivity|]. apply update_slice_local in EU; [|lia|lia]. destruct EU as (A & B1 & B2).
  cbn [st_x st_l st_r]. split; [|unfold form_ok; cbn [st_x]; lia].
  unfold fresh. cbn [st_x st_l st_r]. split; [rewrite <- (proj1 A); exact Lx|]. split; [exact Ll|]. split; [exact Lr|]. split.
  - intros k Hk. destruct (FL k Hk) as (e & E1 & E2). exists e. split; [exact E1|].
    rewrite <- (lenv_agree _ _ _ _ k A) by lia. exact E2.
  - intros k Hk. destruct (FR k Hk) as (e & E1 & E2). exists e. split; [exact E1|].
    rewrite <- (renv_agree _ _ _ _ k A) by lia. exact E2.
Qed.

Lemma ltr_fresh (s : st) pos : inv_r s pos -> S pos <= n - v ->
  rel (fun s' => inv_r s' (S pos)) (sweep_ltr qr E V v ladd solve s (S pos)) (ref_ltr qr E V n v ladd radd solve ones (view s) (S pos)).
Proof.
  intros ((Lx & Ll & Lr & FL & FR) & [F1 F2] & HP) Hp. unfold sweep_ltr, ref_ltr, g_ltr. change (Nat.ltb 0 (S pos)) with true. cbv iota.
  change (fst (view s)) with (st_x s). change (snd (view s)) with (st_v s).
  destruct (canonicalize qr (st_x s) (CAInt (Z.of_nat (S pos))) CANone) as [x|e] eqn:EC; [|reflexivity]. cbn [bind].
  apply canon_left_local in EC; [|lia|lia|unfold llen; lia]. destruct EC as (A & C1 & C2 & C3). unfold llen in C3. rewrite <- (proj1 A), Lx in C3.
  replace (S pos - 1) with pos by lia. destruct (FL pos (le_n _)) as (l & El & Gl). rewrite (getvec_some _ _ _ El). cbn [bind].
  replace (Z.of_nat (S pos) - 1)%Z with (Z.of_nat pos) by lia.
  assert (LE : lenv (lts x) (S pos) = do t <- pyget (lts x) (Z.of_nat pos); ladd pos l t).
  { rewrite lenv_S. rewrite <- (lenv_agree _ _ _ _ pos A) by lia. rewrite Gl. reflexivity. }
  destruct (pyget (lts x) (Z.of_nat pos)) as [t|e] eqn:Et; [|unfold ref_local, g_local, fresh_locl; cbn [fst]; rewrite LE; reflexivity]. cbn [bind] in LE |- *.
  destruct (ladd pos l t) as [l'|e] eqn:Ea; [|unfold ref_local, g_local, fresh_locl; cbn [fst]; rewrite LE; reflexivity]. cbn [bind].
  set (s1 := mkSt x (set_nth (S pos) (Some l') (st_l s)) (set_nth pos None (st_r s)) (st_v s)).
  assert (FS : fresh s1 (S pos)).
  { unfold fresh, s1. cbn [st_x st_l st_r]. rewrite !set_nth_length. split; [rewrite <- (proj1 A); exact Lx|]. split; [exact Ll|]. split; [exact Lr|]. split.
    - intros k Hk. destruct (Nat.eq_dec k (S pos)) as [->|Nk].
      + exists l'. split; [apply nth_error_set_nth_eq; lia|exact LE].
      + destruct (FL k ltac:(lia)) as (e & E1 & E2). exists e. split; [rewrite nth_error_set_nth by exact Nk; exact E1|].
        rewrite <- (lenv_agree _ _ _ _ k A) by lia. exact E2.
    - intros k Hk. destruct (FR k ltac:(lia)) as (e & E1 & E2). exists e. split; [rewrite nth_error_set_nth by lia; exact E1|].
      rewrite <- (renv_agree _ _ _ _ k A) by lia. exact E2. }
  pose proof (local_fresh s1 (S pos) FS ltac:(unfold form_ok, s1; cbn [st_x]; lia) Hp) as HL.
  change (view s1) with (x, st_v s) in HL.
  unfold rel in *. destruct (sweep_local E V v solve s1 (S pos)) as [s2|e]; [|exact HL].
  destruct HL as (H1 & H2 & H3 & H4 & H5). split; [exact H1|]. split; [exact H2|]. split; [exact H3|].
  unfold s1 in H4. cbn [st_x] in H4. lia.
Qed.

Lemma rtl_fresh (s : st) pos : inv_l s (S pos) -> S pos <= n - v ->
  rel (fun s' => inv_l s' pos) (sweep_rtl qr E V v radd solve s pos) (ref_rtl qr E V n v ladd radd solve ones (view s) pos).
Proof.
  intros ((Lx & Ll & Lr & FL & FR) & [F1 F2] & HP) Hp. unfold sweep_rtl, ref_rtl, g_rtl.
  change (fst (view s)) with (st_x s). change (snd (view s)) with (st_v s).
  destruct (canonicalize qr (st_x s) CANone (CAInt (Z.of_nat (pos + v)))) as [x|e] eqn:EC; [|reflexivity]. cbn [bind].
  apply canon_right_local in EC; [|lia|lia|unfold llen; lia]. destruct EC as (A & C1 & C2 & C3). unfold llen in C3. rewrite <- (proj1 A), Lx in C3.
  replace (pos + 1) with (S pos) by lia. destruct (FR (S pos) ltac:(lia)) as (r & Er & Gr). rewrite (getvec_some _ _ _ Er). cbn [bind].
  assert (RE : renv (lts x) pos = do t <- pyget (lts x) (Z.of_nat (pos + v)); radd (pos + v) r t).
  { rewrite renv_S by lia. rewrite <- (renv_agree _ _ _ _ (S pos) A) by lia. rewrite Gr. reflexivity. }
  assert (LL : forall k, k <= pos -> exists e, nth_error (st_l s) k = Some (Some e) /\ lenv (lts x) k = Ok e).
  { intros k Hk. destruct (FL k ltac:(lia)) as (e & E1 & E2). exists e. split; [exact E1|].
    rewrite <- (lenv_agree _ _ _ _ k A) by lia. exact E2. }
  destruct (LL pos (le_n _)) as (l & El & Gl).
  destruct (pyget (lts x) (Z.of_nat (pos + v))) as [t|e] eqn:Et; [|unfold ref_local, g_local, fresh_locl; cbn [fst]; rewrite Gl, RE; reflexivity]. cbn [bind] in RE |- *.
  destruct (radd (pos + v) r t) as [r'|e] eqn:Ea; [|unfold ref_local, g_local, fresh_locl; cbn [fst]; rewrite Gl; cbn [bind]; rewrite RE; reflexivity]. cbn [bind].
  set (s1 := mkSt x (set_nth (S pos) None (st_l s)) (set_nth pos (Some r') (st_r s)) (st_v s)).
  assert (FS : fresh s1 pos).
  { unfold fresh, s1. cbn [st_x st_l st_r]. rewrite !set_nth_length. split; [rewrite <- (proj1 A); exact Lx|]. split; [exact Ll|]. split; [exact Lr|]. split.
    - intros k Hk. destruct (LL k Hk) as (e & E1 & E2). exists e. split; [rewrite nth_error_set_nth by lia; exact E1|exact E2].
    - intros k Hk. destruct (Nat.eq_dec k pos) as [->|Nk].
      + exists r'. split; [apply nth_error_set_nth_eq; lia|exact RE].
      + destruct (FR k ltac:(lia)) as (e & E1 & E2). exists e. split; [rewrite nth_error_set_nth by exact Nk; exact E1|].
        rewrite <- (renv_agree _ _ _ _ k A) by lia. exact E2. }
  pose proof (local_fresh s1 pos FS ltac:(unfold form_ok, s1; cbn [st_x]; lia) ltac:(lia)) as HL.
  change (view s1) with (x, st_v s) in HL.
  unfold rel in *. destruct (sweep_local E V v solve s1 pos) as [s2|e]; [|exact HL].
  destruct HL as (H1 & H2 & H3 & H4 & H5). split; [exact H1|]. split; [exact H2|]. split; [exact H3|].
  unfold s1 in H5. cbn [st_x] in H5. lia.
Qed.

Lemma rel_bind (I J : st -> Prop) r q f g : rel I r q -> (forall s, I s -> rel J (f s) (g (view s))) -> rel J (bind r f) (bind q g).
Proof. unfold rel at 1. destruct r as [s|e]; [intros [-> H] HF; apply HF; exact H|intros -> _; reflexivity]. Qed.

Lemma ltr_loop m : forall pos s, inv_r s pos -> pos + m <= n - v ->
  rel (fun s' => inv_r s' (pos + m)) (foldM (sweep_ltr qr E V v ladd solve) (seq (S pos) m) s)
      (foldM (ref_ltr qr E V n v ladd radd solve ones) (seq (S pos) m) (view s)).
Proof.
  induction m as [|m IH]; intros pos s H Hm.
  - cbn. rewrite Nat.add_0_r. auto.
  - cbn [seq foldM]. eapply rel_bind; [apply ltr_fresh; [exact H|lia]|]. intros s' H'.
    replace (pos + S m) with (S pos + m) by lia. apply IH; [exact H'|lia].
Qed.
Lemma rtl_loop m : forall s, inv_l s m -> m <= n - v ->
  rel (fun s' => inv_l s' 0) (foldM (sweep_rtl qr E V v radd solve) (rev (seq 0 m)) s)
      (foldM (ref_rtl qr E V n v ladd radd solve ones) (rev (seq 0 m)) (view s)).
Proof.
  induction m as [|m IH]; intros s H Hm.
  - cbn. auto.
  - rewrite seq_S, rev_app_distr. cbn [rev app Nat.add foldM]. eapply rel_bind; [apply rtl_fresh; [exact H|lia]|]. intros s' H'.
    apply IH; [exact H'|lia].
Qed.

Lemma one_fresh s num : inv_r s 0 ->
  rel (fun s' => inv_r s' 0) (sweep_one qr E V n v ladd radd solve s num) (ref_one qr E V n v ladd radd solve ones (view s) num).
Proof.
  intros H. unfold sweep_one, ref_one, g_one.
  apply (rel_bind (fun s' => inv_r s' (n - v))).
  - destruct (Nat.ltb 0 num); [apply (ltr_loop (n - v) 0 s H); lia|].
    replace (n - v + 1) with (S (n - v)) by lia. cbn [seq foldM].
    apply (rel_bind (fun s' => inv_r s' 0)).
    + unfold sweep_ltr, ref_ltr, g_ltr. change (Nat.ltb 0 0) with false. cbv iota. cbn [bind].
      destruct H as (F1 & F2 & F3). pose proof (local_fresh s 0 F1 F2 ltac:(lia)) as HL. unfold view in *. cbn [fst snd].
      unfold rel in *. destruct (sweep_local E V v solve s 0); [|exact HL]. destruct HL as (H1 & H2 & H3 & H4 & H5).
      split; [exact H1|]. split; [exact H2|]. split; [exact H3|]. lia.
    + intros s' H'. apply (ltr_loop (n - v) 0 s' H'). lia.
  - intros s' (F1 & F2 & F3).
    assert (HI : inv_l s' (n - v)).
    { split; [exact F1|]. split; [exact F2|]. destruct F2. replace (n - v + v) with n by lia. assumption. }
    pose proof (rtl_loop (n - v) s' HI (le_n _)) as HR. unfold rel in *.
    destruct (foldM (sweep_rtl qr E V v radd solve) (rev (seq 0 (n - v))) s') as [s2|e]; [|exact HR].
    destruct HR as (H1 & (G1 & G2 & G3)). split; [exact H1|]. split; [exact G1|]. split; [exact G2|]. destruct G2. exact H0.
Qed.

Theorem sweeps_fresh num s : inv_r s 0 ->
  rel (fun s' => inv_r s' 0) (sweeps qr E V n v ladd radd solve num s) (ref_sweeps qr E V n v ladd radd solve ones num (view s)).
Proof.
  unfold sweeps, ref_sweeps, g_sweeps. generalize (seq 0 num) as l. intros l. revert s.
  induction l as [|a l IH]; intros s H; [cbn; auto|].
  cbn [foldM]. eapply rel_bind; [apply one_fresh; exact H|]. intros s' H'. apply IH. exact H'.
Qed.

(** ** The environments prepared before the first sweep *)
Lemma prepare_loop (x : ltens K) m : forall rs, m <= n - v -> length rs = n - v + 1 ->
  (forall k, m <= k <= n - v -> exists e, nth_error rs k = Some (Some e) /\ renv (lts x) k = Ok e) ->
  match foldM (fun rs pos => do r <- getvec rs (pos + 1); do t <- pyget (lts x) (Z.of_nat (pos + v));
                             do r' <- radd (pos + v) r t; Ok (set_nth pos (Some r') rs)) (rev (seq 0 m)) rs with
  | Ok rs' => length rs' = n - v + 1 /\ forall k, k <= n - v -> exists e, nth_error rs' k = Some (Some e) /\ renv (lts x) k = Ok e
  | Err e => renv (lts x) 0 = Err e
  end.
Proof.
  induction m as [|m IH]; intros rs Hm Lr FR.
  - cbn. split; [exact Lr|]. intros k Hk. apply FR. lia.
  - rewrite seq_S, rev_app_distr. cbn [rev app Nat.add foldM]. destruct (FR (S m) ltac:(lia)) as (r & Er & Gr).
    replace (m + 1) with (S m) by lia. rewrite (getvec_some _ _ _ Er). cbn [bind].
    assert (RE : renv (lts x) m = do t <- pyget (lts x) (Z.of_nat (m + v)); radd (m + v) r t).
    { rewrite renv_S by lia. rewrite Gr. reflexivity. }
    assert (ERR : forall e, renv (lts x) m = Err e -> renv (lts x) 0 = Err e).
    { clear - Hm Hv Hn. intros e. induction m as [|m IHm]; [auto|]. intros H. apply IHm; [lia|]. rewrite renv_S by lia. rewrite H. reflexivity. }
    destruct (pyget (lts x) (Z.of_nat (m + v))) as [t|e]; [|cbn [bind]; apply ERR; exact RE]. cbn [bind] in RE |- *.
    destruct (radd (m + v) r t) as [r'|e]; [|cbn [bind]; apply ERR; exact RE]. cbn [bind].
    apply IH; [lia|rewrite set_nth_length; exact Lr|]. intros k Hk. destruct (Nat.eq_dec k m) as [->|Nk].
    + exists r'. split; [apply nth_error_set_nth_eq; lia|exact RE].
    + rewrite nth_error_set_nth by exact Nk. apply FR. lia.
Qed.

Theorem prepare_fresh (x : ltens K) : length (lts x) = n -> (0 <= lcan x)%Z -> (rcan x <= Z.of_nat n)%Z ->
  match sweep_prepare qr E V n v radd ones x with
  | Ok s => ref_prepare qr E n v radd ones x = Ok (st_x s) /\ st_v s = None /\ inv_r s 0
  | Err e => ref_prepare qr E n v radd ones x = Err e
  end.
Proof.
  intros Lx H1 H2. unfold sweep_prepare, ref_prepare.
  destruct (canonicalize qr x CANone (CAInt 1)) as [z|e] eqn:EC; [|reflexivity]. cbn [bind].
  apply canon_right_local in EC; [|lia|lia|unfold llen; lia]. destruct EC as (A & C1 & C2 & C3). unfold llen in C3. rewrite <- (proj1 A), Lx in C3.
  pose proof (prepare_loop z (n - v) (repeat None (n - v) ++ [Some ones]) (le_n _)) as HP.
  assert (HL : length (repeat None (n - v) ++ [Some ones]) = n - v + 1) by (rewrite app_length, repeat_length; reflexivity).
  specialize (HP HL).
  assert (H0 : forall k, n - v <= k <= n - v -> exists e, nth_error (repeat None (n - v) ++ [Some ones]) k = Some (Some e) /\ renv (lts z) k = Ok e).
  { intros k Hk. assert (k = n - v) as -> by lia. exists ones. split.
    - rewrite nth_error_app2 by (rewrite repeat_length; lia). rewrite repeat_length, Nat.sub_diag. reflexivity.
    - unfold PfSweep.renv. replace (n - v - (n - v)) with 0 by lia. reflexivity. }
  specialize (HP H0). destruct (foldM _ (rev (seq 0 (n - v))) _) as [rs|e]; [|rewrite HP; reflexivity].
  destruct HP as (Lr & FR). cbn [bind st_x st_v]. destruct (FR 0 ltac:(lia)) as (e & _ & Er). rewrite Er. cbn [bind].
  split; [reflexivity|]. split; [reflexivity|]. split; [|split; [split; cbn [st_x]; lia|cbn [st_x]; lia]].
  unfold fresh. cbn [st_x st_l st_r]. split; [rewrite <- (proj1 A); exact Lx|]. split; [cbn [length]; rewrite repeat_length; lia|]. split; [exact Lr|]. split.
  - intros k Hk. assert (k = 0) as -> by lia. exists ones. split; reflexivity.
  - intros k Hk. apply FR. lia.
Qed.
End Fresh.
