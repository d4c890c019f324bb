(** Tensors with a wrong number of legs in [reductions_pmps]; POVMs without elements. *)
From Verif Require Import PfBounds PfRedPmps PfLocality LocalPovm Physics.
Open Scope nat_scope.

Section Errors.
Context {K : StarRing}.
Lemma chain_lt_ok (ts : list (nd K)) l r : chain_ok ts l r -> Forall lt_ok ts.
Proof. intros (_ & Hb & _). apply Forall_forall. intros t Ht. eapply bonds_in; eassumption. Qed.
Theorem reductions_pmps_legs qr (x : ltens K) a b : qr_sound qr -> mpa_pos x -> cform_wk x -> a < b <= llen x -> length (nth a (mshape x) []) <> 2 ->
  reductions_pmps qr x None (Some [Z.of_nat a]) (Some [Z.of_nat b]) = Err ValueError \/
  (reductions_pmps qr x None (Some [Z.of_nat a]) (Some [Z.of_nat b]) = Err LinAlgError /\ qr_fails qr).
Proof.
  intros Hq Hx Hw Hab H2. unfold reductions_pmps. change (Some [Z.of_nat a]) with (Some (map Z.of_nat (map fst [(a, b)]))). change (Some [Z.of_nat b]) with (Some (map Z.of_nat (map snd [(a, b)]))).
  rewrite windows_stops. cbn [bind]. match goal with |- context[red_pmps_loop qr x ?l] => change l with [(Z.of_nat a, Z.of_nat b)] end. cbn [red_pmps_loop]. unfold red_pmps_window. cbn [fst snd].
  assert (T1 : left_target (Z.of_nat (llen x)) (CAInt (Z.of_nat a)) = Z.of_nat a) by (unfold left_target; destruct (Z.ltb_spec (Z.of_nat a) 0); lia).
  assert (T2 : right_target (Z.of_nat (llen x)) (CAInt (Z.of_nat b)) = Z.of_nat b) by (unfold right_target; destruct (Z.ltb_spec (Z.of_nat b) 0); lia).
  pose proof (canonicalize_spec qr Hq 1 1 x (CAInt (Z.of_nat a)) (CAInt (Z.of_nat b)) (pos_chain _ Hx) Hw ltac:(intros [? ?]; discriminate)) as HS. cbv zeta in HS. rewrite T1, T2 in HS.
  destruct (HS ltac:(lia) ltac:(lia) ltac:(lia)) as [(y & -> & ((Cy & Sy & _) & _))|[-> HF]]; [|right; split; [reflexivity|exact HF]]. left. cbn [bind].
  assert (Ly : llen y = llen x) by (rewrite <- !mshape_length, Sy; reflexivity). rewrite pyget_nat.
  destruct (nth_error (lts y) a) as [t|] eqn:E; [|apply nth_error_None in E; unfold llen in *; lia]. cbn [bind].
  assert (Ht : lt_ok t) by (apply chain_lt_ok in Cy; rewrite Forall_forall in Cy; apply Cy; eapply nth_error_In; exact E).
  assert (Pt : length (pdims t) <> 2).
  { rewrite <- Sy in H2. unfold mshape in H2. erewrite nth_error_nth in H2; [exact H2|]. rewrite nth_error_map, E. reflexivity. }
  unfold shape4. rewrite (lt_ok_shp t Ht). cbn [app]. destruct (pdims t) as [|p1 [|p2 [|p3 p]]]; cbn in Pt |- *; try reflexivity; try lia. destruct p; reflexivity.
Qed.
(** An empty list of elements *)
Theorem povm_empty ic : exists p : povm K, povm_new [] ic = Ok p /\ povm_len p = 0 /\ povm_list p = [] /\ povm_pmap p = Err ValueError.
Proof. eexists. split; [reflexivity|]. repeat split. Qed.
(** Terms of different shapes in [sparse_cH] *)
Lemma kron_shape2 (p q : nd K) a b c e : shp p = [a; b] -> shp q = [c; e] -> shp (kron p q) = [a * c; b * e].
Proof. intros Sp Sq. unfold kron, kron_eq, pad_axes, ndim. rewrite Sp, Sq. reflexivity. Qed.
Theorem sparse_cH_shapes d (a b : nd K) rest last m1 n1 m2 n2 : 0 < d -> shp a = [m1; n1] -> shp b = [m2; n2] -> [m1; n1] <> [m2; n2] ->
  sparse_cH (TMat a :: TMat b :: rest ++ [last]) d = Err ValueError.
Proof.
  intros Hd Sa Sb N. unfold sparse_cH. set (M := length rest).
  assert (L : length (TMat a :: TMat b :: rest ++ [last]) = S (S (S M))) by (cbn [length]; rewrite app_length; unfold M; cbn; lia). rewrite L.
  change (TMat a :: TMat b :: rest ++ [last]) with ((TMat a :: TMat b :: rest) ++ [last]). rewrite rev_app_distr, removelast_last. cbn [rev app]. replace (S (S (S M)) - 1) with (S (S M)) by lia. cbn [seq combine foldM].
  unfold cH_step at 1. cbn [fst snd term_matrix bind sp_add]. unfold cH_step at 1. cbn [fst snd term_matrix bind sp_add].
  assert (P : forall k, 0 < d ^ k) by (intros k; apply Nat.neq_0_lt_0, Nat.pow_nonzero; lia).
  match goal with |- context[list_eqb ?u ?v] => assert (E : list_eqb u v = false) end.
  { apply not_true_iff_false. intros H. apply list_eqb_eq in H. rewrite (kron_shape2 _ _ (d ^ 0) (d ^ 0) (m1 * d ^ (S M)) (n1 * d ^ (S M))) in H; [|reflexivity|rewrite (kron_shape2 _ _ m1 n1 (d ^ S M) (d ^ S M)); auto; cbn; do 3 f_equal; lia].
    rewrite (kron_shape2 _ _ (d ^ 1) (d ^ 1) (m2 * d ^ M) (n2 * d ^ M)) in H; [|reflexivity|rewrite (kron_shape2 _ _ m2 n2 (d ^ M) (d ^ M)); auto; cbn; do 3 f_equal; lia].
    injection H as H1 H2. cbn [Nat.pow] in H1, H2. specialize (P M). apply N. f_equal; [|f_equal]; apply (Nat.mul_cancel_r _ _ (d * d ^ M)); nia. }
  rewrite E. reflexivity.
Qed.
End Errors.
