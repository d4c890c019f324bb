(** Statements about [POVM.linear_inversion_map] (localpovm.py 73-81). *)
From Coq Require Import Reals Lra.
From Verif Require Import CanonSpec PfLinInv PfRandSvd ExLinInv.
Open Scope nat_scope.

(** C74.  [pinv_sound]: the four equations of Penrose, or LinAlgError.  [recon d n b f]: the
    matrix [np.dot(b, f).reshape(d, d)].  [born]: the probabilities Tr(E_k rho).  [hs2], [sq]: squared
    Frobenius norm of a matrix, squared norm of a vector.  [separates]: different matrices have
    different probabilities. *)
Theorem C74_inversion pinv (p : povm CS) n d : pinv_sound pinv -> ndwf (elements p) -> shp (elements p) = [n; d; d] -> 0 < n -> 0 < d ->
  outc (pinv_fails pinv) (linear_inversion_map pinv p) (fun b => is_mat b (d * d) n /\
    (forall rho k, k < n -> born d p (recon d n b (born d p rho)) k = born d p rho k) /\
    (forall rho, hs2 d rho = (hs2 d (recon d n b (born d p rho)) + hs2 d (fun i j => rho i j - recon d n b (born d p rho) i j))%K) /\
    (forall f rho, sq (K:=CS) n (fun k => born d p rho k - f k)%K = (sq (K:=CS) n (fun k => born d p (recon d n b f) k - f k) + sq (K:=CS) n (born d p (fun i j => rho i j - recon d n b f i j)))%K) /\
    (separates d n p -> forall rho i j, i < d -> j < d -> recon d n b (born d p rho) i j = rho i j) /\
    ((forall k i j, k < n -> i < d -> j < d -> kconj (povm_elem p k j i) = povm_elem p k i j) -> forall f, (forall k, k < n -> kconj (f k) = f k) ->
       forall i j, i < d -> j < d -> kconj (recon d n b f j i) = recon d n b f i j)).
Proof. intros Hp. exact (inversion_spec pinv Hp p n d). Qed.
Print Assumptions C74_inversion.
(** Linear inversion of the probabilities of [pauli_povm] returns the state. *)
Theorem C74_pauli pinv d : pinv_sound pinv -> 2 <= d -> exists p, cpauli_povm d = Ok p /\
  outc (pinv_fails pinv) (linear_inversion_map pinv p) (fun b => is_mat b (d * d) (pauli_count d) /\
    forall rho i j, i < d -> j < d -> recon d (pauli_count d) b (born d p rho) i j = rho i j).
Proof.
  intros Hp Hd. destruct (pauli_povm_ok Ci c_rsq c_frac c_close1 c_frac_1 c_close1_1 d Hd) as (p & E & _ & (W & S & _)). rewrite pauli_mats_len in S.
  destruct (cpauli_ic d Hd) as (p' & E' & _ & IC). unfold cpauli_povm in *. assert (p' = p) by congruence. subst p'. exists p. split; [exact E|].
  eapply outc_weaken; [apply (inversion_spec pinv Hp p (pauli_count d) d W S); [unfold pauli_count; destruct (Nat.eqb d 2); nia|lia]|auto|].
  intros b (Hb & _ & _ & _ & H & _). split; [exact Hb|]. apply H. exact IC.
Qed.
Print Assumptions C74_pauli.
(** In terms of norms: the reconstruction from the probabilities of [rho] has the least norm of
    all matrices with these probabilities, and the one from data [f] is a least-squares fit. *)
Theorem C74_least pinv (p : povm CS) n d b : pinv_sound pinv -> ndwf (elements p) -> shp (elements p) = [n; d; d] -> 0 < n -> 0 < d ->
  linear_inversion_map pinv p = Ok b ->
  (forall rho, Cre (hs2 d (recon d n b (born d p rho))) <= Cre (hs2 d rho))%R /\
  (forall f rho, Cre (sq (K:=CS) n (fun k => born d p (recon d n b f) k - f k)%K) <= Cre (sq (K:=CS) n (fun k => born d p rho k - f k)%K))%R.
Proof.
  intros Hp W S Hn Hd E. destruct (outc_inv _ _ _ _ (inversion_spec pinv Hp p n d W S Hn Hd) E) as (_ & _ & N & L & _).
  assert (Q : forall m (v : nat -> CS), (0 <= Cre (sq (K:=CS) m v))%R).
  { intros m v. unfold sq. induction m as [|m IH]; [cbn; lra|]. cbn [bigsum]. destruct (v m) as [x y]. destruct (bigsum m _) as [a c]. unfold Cre in *. cbn in *. nra. }
  assert (A : forall x y z : CS, x = (y + z)%K -> (0 <= Cre z)%R -> (Cre y <= Cre x)%R) by (intros [? ?] [? ?] [? ?] H; injection H as -> _; cbn; lra).
  split; [intros rho; apply (A _ _ _ (N rho)); rewrite hs2_sq; apply Q|intros f rho; apply (A _ _ _ (L f rho)), Q].
Qed.
Print Assumptions C74_least.
(** Two sound routines give the same map. *)
Theorem C74_unique pinv pinv' (p : povm CS) n d b b' : pinv_sound pinv -> pinv_sound pinv' -> ndwf (elements p) -> shp (elements p) = [n; d; d] -> 0 < n -> 0 < d ->
  linear_inversion_map pinv p = Ok b -> linear_inversion_map pinv' p = Ok b' -> b = b'.
Proof. intros Hp. exact (inversion_unique pinv Hp pinv' p n d b b'). Qed.
Print Assumptions C74_unique.
(** Without informational completeness states are not recovered. *)
Theorem C74_x_refuted pinv b : pinv_sound pinv -> forall p, cx_povm 2 = Ok p -> linear_inversion_map pinv p = Ok b ->
  exists rho i j, i < 2 /\ j < 2 /\ recon 2 2 b (born 2 p rho) i j <> rho i j.
Proof.
  intros Hp p E Eb. destruct x_qubit_spec as (p' & E' & V). assert (p' = p) by congruence. subst p'.
  assert (Z : forall k, k < 2 -> born 2 p (z_qubit 0) k = born 2 p (z_qubit 1) k).
  { intros k Hk. unfold born, trace_of, mat_dot. cbn [bigsum]. rewrite !V by lia. destruct (lt2 k Hk) as [-> | ->]; apply cplx_eq; cbn -[IZR half]; ring. }
  assert (R : recon 2 2 b (born 2 p (z_qubit 0)) 0 0 = recon 2 2 b (born 2 p (z_qubit 1)) 0 0) by (unfold recon; apply bigsum_ext; intros k Hk; rewrite Z by exact Hk; reflexivity).
  destruct (cs_dec (recon 2 2 b (born 2 p (z_qubit 0)) 0 0) (z_qubit 0 0 0)) as [H|H]; [|exists (z_qubit 0), 0, 0; auto].
  exists (z_qubit 1), 0, 0. split; [lia|]. split; [lia|]. rewrite <- R, H. intros C. apply (f_equal Cre) in C. cbn in C. lra.
Qed.
Print Assumptions C74_x_refuted.
Theorem C74_axes pinv (p : povm CS) : ndim (elements p) <> 3 -> linear_inversion_map pinv p = Err ValueError.
Proof. intros H. unfold linear_inversion_map, povm_pmap. apply Nat.eqb_neq in H. rewrite H. reflexivity. Qed.
Print Assumptions C74_axes.
(** A sound routine that answers for the Pauli POVM of a qubit *)
Example C74_ex : exists pinv p b, pinv_sound pinv /\ cpauli_povm 2 = Ok p /\ linear_inversion_map pinv p = Ok b.
Proof. exact pinv_example. Qed.
