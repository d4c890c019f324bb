(** [eig_sum] sweeps with the compression of the sum of its operators. *)
From Verif Require Export PfEig.
From Verif Require Import PfCanon PfBounds PfUpdate PfFromArray PfCompress.
Open Scope nat_scope.

Section Spec.
Context {K : StarRing}.
(** The dense operator an entry of the list stands for: an MPO itself, an MPS the
    projector onto it (not normalised). *)
Definition is_op (m : ltens K) (ds : list nat) : Prop := mpa_ok m /\ mpo_like (lts m) ds ds.
Definition is_state (m : ltens K) (ds : list nat) : Prop := chain_ok (lts m) 1 1 /\ mps_like (lts m) ds.
Definition mker (m : ltens K) (is js : list nat) : K :=
  match ndims m with
  | 2%Z :: _ => amp (lts m) (pairs is js) 0 0
  | _ => (amp (lts m) (singles is) 0 0 * kconj (amp (lts m) (singles js) 0 0))%K
  end.
Definition ksum (l : list K) : K := fold_right kadd k0 l.
Definition sum_ker (mpas : list (ltens K)) (is js : list nat) : K := ksum (map (fun m => mker m is js) mpas).
End Spec.

Section Sum.
Context {K : StarRing}.
Add Ring Kr : (k_ring K).
Variable qr : nd K -> res (nd K * nd K).
Variable svd : nd K -> res (nd K * list K * nd K).
Variable eigs : nd K -> list K -> res (nd K * nd K).
Hypothesis Hqr : qr_sound qr.
Hypothesis Hsvd : svd_sound svd.
Hypothesis Heigs : eigs_wf eigs.

(** One entry of the list. *)
Definition m_add (addo adds : nd K -> nd K -> nd K -> res (nd K)) (m : ltens K) (k : nat) (e t : nd K) : res (nd K) :=
  do nd <- pyget (ndims m) 0;
  if (nd =? 2)%Z then (do w <- pyget (lts m) (Z.of_nat k); addo e w t)
  else if (nd =? 1)%Z then (do w <- pyget (lts m) (Z.of_nat k); adds e w t)
  else Err ValueError.
Definition m_one (m : ltens K) : nd K := match ndims m with 2%Z :: _ => np_ones 3 | _ => np_ones 2 end.

Lemma sum_add_list addo adds mpas k t : forall es es', Forall2 (fun m p => m_add addo adds m k (fst p) t = Ok (snd p)) mpas (combine es es') -> length es = length es' ->
  length es = length mpas -> eig_sum_add addo adds mpas k es t = Ok es'.
Proof.
  unfold eig_sum_add. induction mpas as [|m mpas IH]; intros es es' H L L'.
  - destruct es; [|discriminate]. destruct es'; [|discriminate]. reflexivity.
  - destruct es as [|e es]; [discriminate|]. destruct es' as [|e' es']; [discriminate|]. cbn [combine] in *. inversion H; subst. cbn [mapM].
    cbn [fst snd] in *. unfold m_add in H3. rewrite H3. cbn [bind]. rewrite (IH es es'); auto.
Qed.

Lemma list_env addo adds (mpas : list (ltens K)) (ts : list (nd K)) ks : forall es0 es,
  Forall2 (fun m p => foldM (fun e k => do t <- pyget ts (Z.of_nat k); m_add addo adds m k e t) ks (fst p) = Ok (snd p)) mpas (combine es0 es) ->
  length es0 = length mpas -> length es = length mpas -> mpas <> [] ->
  foldM (fun es k => do t <- pyget ts (Z.of_nat k); eig_sum_add addo adds mpas k es t) ks es0 = Ok es.
Proof.
  induction ks as [|k ks IH]; intros es0 es H L0 L Hne.
  - cbn [foldM] in *. f_equal. clear Hne. revert es0 es H L0 L. induction mpas as [|m mpas IH]; intros es0 es H L0 L.
    + destruct es0; [|discriminate]. destruct es; [reflexivity|discriminate].
    + destruct es0 as [|e0 es0]; [discriminate|]. destruct es as [|e es]; [discriminate|]. cbn [combine] in H. inversion H; subst. cbn [fst snd] in *.
      injection H3 as ->. f_equal. apply IH; auto.
  - cbn [foldM].
    assert (X : exists t, pyget ts (Z.of_nat k) = Ok t).
    { destruct mpas as [|m mpas]; [contradiction|]. destruct es0 as [|e0 es0]; [discriminate|]. destruct es as [|e es]; [discriminate|].
      cbn [combine] in H. inversion H; subst. cbn [foldM] in H3. apply bind_inv in H3. destruct H3 as (s & E & _). apply bind_inv in E. destruct E as (t & E & _). eauto. }
    destruct X as (t & Et). rewrite Et. cbn [bind].
    assert (X : exists es1, length es1 = length mpas /\ Forall2 (fun m p => m_add addo adds m k (fst p) t = Ok (snd p)) mpas (combine es0 es1) /\
       Forall2 (fun m p => foldM (fun e k => do t <- pyget ts (Z.of_nat k); m_add addo adds m k e t) ks (fst p) = Ok (snd p)) mpas (combine es1 es)).
    { clear Hne IH. revert es0 es H L0 L. induction mpas as [|m mpas IH]; intros es0 es H L0 L.
      - exists []. destruct es0; [|discriminate]. destruct es; [|discriminate]. repeat split; constructor.
      - destruct es0 as [|e0 es0]; [discriminate|]. destruct es as [|e es]; [discriminate|]. cbn [combine] in H. inversion H; subst. cbn [fst snd] in *.
        destruct (IH es0 es) as (es1 & L1 & F1 & F2); auto. cbn [foldM] in H3. apply bind_inv in H3. destruct H3 as (e1 & E1 & E2). rewrite Et in E1. cbn [bind] in E1.
        exists (e1 :: es1). cbn [length combine]. split; [lia|]. split; constructor; auto. }
    destruct X as (es1 & L1 & F1 & F2). rewrite (sum_add_list addo adds mpas k t es0 es1 F1) by lia. cbn [bind]. apply IH; auto.
Qed.

Lemma combine_map_Forall2 {A B C : Type} (f : A -> B) (P : A -> B * C -> Prop) (l : list A) cs : length cs = length l ->
  (forall i a c, nth_error l i = Some a -> nth_error cs i = Some c -> P a (f a, c)) -> Forall2 P l (combine (map f l) cs).
Proof.
  revert cs. induction l as [|a l IH]; intros cs L H; destruct cs as [|c cs]; try discriminate; [constructor|].
  cbn. constructor; [apply (H 0); reflexivity|]. apply IH; [cbn in L; lia|]. intros i x y Hx Hy. apply (H (S i)); assumption.
Qed.
Lemma choose_list {A B : Type} (P : A -> B -> Prop) l : (forall a, In a l -> exists b, P a b) -> exists bs, Forall2 P l bs.
Proof.
  induction l as [|a l IH]; intros H; [exists []; constructor|]. destruct (H a (or_introl eq_refl)) as (b & Hb).
  destruct IH as (bs & Hbs); [intros; apply H; right; assumption|]. exists (b :: bs). constructor; auto.
Qed.

Lemma ndims_op (m : ltens K) es : is_op m es -> exists l, ndims m = 2%Z :: l.
Proof.
  intros [[Hn B] [M _]]. unfold ndims. destruct (lts m) as [|t ts]; [contradiction|]. destruct es as [|d es]; [discriminate|].
  cbn [map] in *. injection M as M _. unfold pairs in M. exists (map (fun t0 => (Z.of_nat (ndim t0) - 2)%Z) ts). f_equal.
  destruct B as (Ot & _). pose proof (lt_ok_shp t Ot) as S. rewrite M in S. unfold ndim. rewrite S. reflexivity.
Qed.
Lemma ndims_state (m : ltens K) es : is_state m es -> exists l, ndims m = 1%Z :: l.
Proof.
  intros [(Hn & B & _) M]. unfold ndims. destruct (lts m) as [|t ts]; [contradiction|]. destruct es as [|d es]; [discriminate|].
  unfold mps_like in M. cbn [map] in *. injection M as M _. exists (map (fun t0 => (Z.of_nat (ndim t0) - 2)%Z) ts). f_equal.
  destruct B as (Ot & _). pose proof (lt_ok_shp t Ot) as S. rewrite M in S. unfold ndim. rewrite S. reflexivity.
Qed.

(** ** The window *)
Section Win.
Variables (ds : list nat) (x : ltens K) (pos v : nat) (X1 X2 X3 : list (nd K)) (d1 d2 d3 : list nat) (la ra : nat).
Hypothesis W : window ds x pos v X1 X2 X3 d1 d2 d3 la ra.
Hypothesis Hv : 1 <= v.

Definition m_op (m : ltens K) (pos pos_end : Z) (l r : nd K) : res (nd K) :=
  do nd <- pyget (ndims m) 0;
  if (nd =? 2)%Z then eig_local_op l (pyslice (lts m) pos pos_end) r
  else if (nd =? 1)%Z then eig_local_op_mps l (pyslice (lts m) pos pos_end) r
  else Err ValueError.
Lemma m_window m : is_op m ds \/ is_state m ds -> exists p : (nd K * nd K),
  lenv (nd K) (m_add (fun e w t => eig_leftvec_add e w t None) eig_leftvec_add_mps m) (m_one m) (lts x) pos = Ok (fst p) /\
  renv (nd K) (length ds) v (m_add eig_rightvec_add eig_rightvec_add_mps m) (m_one m) (lts x) pos = Ok (snd p) /\
  m_op m (Z.of_nat pos) (Z.of_nat (pos + v)) (fst p) (snd p) = Ok (dense_op ds (mker m) v (lts x) pos).
Proof.
  intros [H|H].
  - destruct (ndims_op _ _ H) as (l0 & N). destruct H as [[Hn B] M].
    destruct (op_window_o _ _ _ _ _ _ _ _ _ _ _ _ W Hv m B M) as (l & r & E1 & E2 & E3). exists (l, r). cbn [fst snd].
    unfold m_op, m_one, mker. rewrite N. split; [|split].
    + rewrite <- E1. apply foldM_ext. intros k e _. destruct (pyget (lts x) (Z.of_nat k)); [|reflexivity]. cbn [bind]. unfold m_add. rewrite N. reflexivity.
    + rewrite <- E2. apply foldM_ext. intros k e _. destruct (pyget (lts x) (Z.of_nat k)); [|reflexivity]. cbn [bind]. unfold m_add. rewrite N. reflexivity.
    + rewrite <- E3. reflexivity.
  - destruct (ndims_state _ _ H) as (l0 & N). destruct H as [C M].
    destruct (op_window_s _ _ _ _ _ _ _ _ _ _ _ _ W Hv m C M) as (l & r & E1 & E2 & E3). exists (l, r). cbn [fst snd].
    unfold m_op, m_one, mker. rewrite N. split; [|split].
    + rewrite <- E1. apply foldM_ext. intros k e _. destruct (pyget (lts x) (Z.of_nat k)); [|reflexivity]. cbn [bind]. unfold m_add. rewrite N. reflexivity.
    + rewrite <- E2. apply foldM_ext. intros k e _. destruct (pyget (lts x) (Z.of_nat k)); [|reflexivity]. cbn [bind]. unfold m_add. rewrite N. reflexivity.
    + rewrite <- E3. reflexivity.
Qed.

Lemma foldM_nadd (Ms : list (list nat -> list nat -> K)) : forall M,
  foldM nadd_py (map (fun M => dense_op ds M v (lts x) pos) Ms) (dense_op ds M v (lts x) pos) =
  Ok (dense_op ds (fun is js => M is js + ksum (map (fun N => N is js) Ms))%K v (lts x) pos).
Proof.
  induction Ms as [|N Ms IH]; intros M; cbn [map foldM].
  - f_equal. unfold dense_op. apply lop_ext. intros is js _ _. cbn. ring.
  - unfold dense_op at 1 2. rewrite lop_add. cbn [bind].
    etransitivity; [exact (IH (fun is js => M is js + N is js)%K)|]. f_equal. unfold dense_op. apply lop_ext. intros is js _ _. cbn [ksum map fold_right]. unfold ksum. ring.
Qed.

Lemma sum_op_list mpas (ps : list (nd K * nd K)) a b (Ms : ltens K -> nd K) :
  Forall2 (fun m p => m_op m a b (fst p) (snd p) = Ok (Ms m)) mpas ps ->
  mapM (fun p : ltens K * nd K * nd K => let '((m, l), r) := p in
      do nd <- pyget (ndims m) 0;
      if (nd =? 2)%Z then eig_local_op l (pyslice (lts m) a b) r
      else if (nd =? 1)%Z then eig_local_op_mps l (pyslice (lts m) a b) r
      else Err ValueError) (combine (combine mpas (map fst ps)) (map snd ps)) = Ok (map Ms mpas).
Proof.
  induction 1 as [|m p mpas ps H F IH]; [reflexivity|]. cbn [map combine mapM]. unfold m_op in H. rewrite H. cbn [bind]. rewrite IH. reflexivity.
Qed.

Lemma sum_window mpas : mpas <> [] -> Forall (fun m => is_op m ds \/ is_state m ds) mpas -> exists ls rs,
  lenv (list (nd K)) (eig_sum_ladd mpas) (map m_one mpas) (lts x) pos = Ok ls /\
  renv (list (nd K)) (length ds) v (eig_sum_radd mpas) (map m_one mpas) (lts x) pos = Ok rs /\
  eig_sum_op mpas ls (Z.of_nat pos) (Z.of_nat (pos + v)) rs = Ok (dense_op ds (sum_ker mpas) v (lts x) pos).
Proof.
  intros Hne H. rewrite Forall_forall in H.
  destruct (choose_list (fun m (p : nd K * nd K) =>
     lenv (nd K) (m_add (fun e w t => eig_leftvec_add e w t None) eig_leftvec_add_mps m) (m_one m) (lts x) pos = Ok (fst p) /\
     renv (nd K) (length ds) v (m_add eig_rightvec_add eig_rightvec_add_mps m) (m_one m) (lts x) pos = Ok (snd p) /\
     m_op m (Z.of_nat pos) (Z.of_nat (pos + v)) (fst p) (snd p) = Ok (dense_op ds (mker m) v (lts x) pos)) mpas) as (ps & F).
  { intros m Hm. apply m_window. apply H. exact Hm. }
  exists (map fst ps), (map snd ps). pose proof (Forall2_len _ _ _ _ _ F) as L.
  split; [|split].
  - unfold lenv, eig_sum_ladd. apply list_env; auto; rewrite ?map_length; auto.
    clear - F. induction F as [|m p mpas ps (E & _) F IH]; [constructor|]. cbn [map combine]. constructor; [exact E|exact IH].
  - unfold renv, eig_sum_radd. apply list_env; auto; rewrite ?map_length; auto.
    clear - F. induction F as [|m p mpas ps (_ & E & _) F IH]; [constructor|]. cbn [map combine]. constructor; [exact E|exact IH].
  - unfold eig_sum_op. rewrite (sum_op_list mpas ps _ _ (fun m => dense_op ds (mker m) v (lts x) pos)).
    2: { eapply Forall2_weaken; [|exact F]. intros m p (_ & _ & E). exact E. }
    cbn [bind]. destruct mpas as [|m mpas]; [contradiction|]. cbn [map]. rewrite <- (map_map mker (fun M => dense_op ds M v (lts x) pos)).
    rewrite foldM_nadd. f_equal. unfold dense_op. apply lop_ext. intros is js _ _. unfold sum_ker. cbn [map ksum fold_right]. unfold ksum. rewrite map_map. reflexivity.
Qed.
End Win.

Theorem eig_sum_dense rs (mpas : list (ltens K)) num v sv rk ds : mpas <> [] -> Forall (fun m => is_op m ds \/ is_state m ds) mpas ->
  1 <= v -> start_ok rs sv ds ->
  eig_sum qr svd eigs rs mpas num v sv rk =
  passert (Nat.ltb v (length ds)) (
    do x <- start_vector rs sv rk;
    dense_eig qr svd eigs ds (sum_ker mpas) v num x).
Proof.
  intros Hne H Hv Hst.
  assert (HL : forall m, In m mpas -> llen m = length ds).
  { intros m Hm. rewrite Forall_forall in H. destruct (H m Hm) as [[_ M]|[_ M]]; unfold llen; [eapply mpo_like_length|eapply mps_like_length]; eauto. }
  assert (HN : mapM (fun m => pyget (ndims m) 0) mpas = Ok (map (fun m => hd 0%Z (ndims m)) mpas)).
  { clear - H. induction H as [|m mpas Hm F IH]; [reflexivity|]. cbn [mapM map]. rewrite IH.
    destruct Hm as [Hm|Hm]; [destruct (ndims_op _ _ Hm) as (l & ->)|destruct (ndims_state _ _ Hm) as (l & ->)]; reflexivity. }
  assert (HO : map (fun pl => np_ones (K:=K) (Z.to_nat (1 + pl))) (map (fun m => hd 0%Z (ndims m)) mpas) = map m_one mpas).
  { rewrite map_map. apply map_ext_in. intros m Hm. rewrite Forall_forall in H. unfold m_one.
    destruct (H m Hm) as [Hm'|Hm']; [destruct (ndims_op _ _ Hm') as (l & ->)|destruct (ndims_state _ _ Hm') as (l & ->)]; reflexivity. }
  unfold eig_sum. destruct mpas as [|m0 mpas]; [contradiction|]. change (pyget (m0 :: mpas) 0) with (Ok m0). cbn [bind].
  set (ms := m0 :: mpas) in *. rewrite (HL m0 (or_introl eq_refl)).
  replace (forallb (fun m => Nat.eqb (llen m) (length ds)) ms) with true
    by (symmetry; apply forallb_forall; intros m Hm; apply Nat.eqb_eq; apply HL; exact Hm).
  cbn [passert]. rewrite HN. cbn [bind].
  destruct (Nat.ltb_spec v (length ds)) as [Hn|]; [|reflexivity]. cbn [passert].
  destruct (start_vector rs sv rk) as [x|e] eqn:Ex; [|reflexivity]. cbn [bind]. pose proof (start_vector_inv _ _ _ _ _ Hst Ex) as Hx.
  rewrite HO. apply (sweeps_dense qr svd eigs Hqr Hsvd Heigs (list (nd K))); auto.
  - intros z Hz. destruct (window_ex ds z 0 v Hz) as (X1 & X2 & X3 & d1 & d2 & d3 & la & ra & W); [lia|lia|].
    destruct (sum_window _ _ _ _ _ _ _ _ _ _ _ _ W Hv ms Hne H) as (l & r & _ & E & _). exists r. exact E.
  - intros z pos Hz Hp. destruct (window_ex ds z pos v Hz) as (X1 & X2 & X3 & d1 & d2 & d3 & la & ra & W); [lia|lia|].
    destruct (sum_window _ _ _ _ _ _ _ _ _ _ _ _ W Hv ms Hne H) as (l & r & E1 & E2 & E3).
    unfold fresh_locl. rewrite E1, E2. cbn [bind]. rewrite E3. cbn [bind]. unfold dense_locl.
    rewrite (window_slice _ _ _ _ _ _ _ _ _ _ _ _ W). pose proof W as [wx wd l1 l2 e1 e2 m1 m2 m3 b1 b2 b3 p1 p2 p3 ne].
    destruct (ins_mid X1 X2 X3 pos v l1 l2) as (_ & A2 & _). rewrite wx, A2. reflexivity.
Qed.
End Sum.
