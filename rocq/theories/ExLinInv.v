(** A pseudo-inverse routine that is exact on the Pauli POVM of a qubit. *)
From Coq Require Import Reals Lra.
From Verif Require Import CanonSpec.
From Verif Require Export PfLinInv PfRandSvd.
Open Scope nat_scope.
Definition pq (k a b : nat) : CS := match k with 0 | 1 => (toC (/3) * x_qubit k a b)%K | 2 | 3 => (toC (/3) * y_qubit (k - 2) a b)%K | _ => (toC (/3) * z_qubit (k - 4) a b)%K end.
Lemma lt6 k : k < 6 -> k = 0 \/ k = 1 \/ k = 2 \/ k = 3 \/ k = 4 \/ k = 5. Proof. lia. Qed.
Lemma pauli_qubit : exists p, cpauli_povm 2 = Ok p /\ ndwf (elements p) /\ shp (elements p) = [6; 2; 2] /\ forall k a b, k < 6 -> a < 2 -> b < 2 -> povm_elem p k a b = pq k a b.
Proof.
  destruct (pauli_povm_ok Ci c_rsq c_frac c_close1 c_frac_1 c_close1_1 2 ltac:(lia)) as (p & E & I & (W & S & G)). exists p. split; [exact E|]. split; [exact W|].
  rewrite pauli_mats_len in *. split; [exact S|]. intros k a b Hk Ha Hb. unfold povm_elem. rewrite G by assumption. clear G S.
  assert (L : forall c, exists f g, pair_mats c_rsq 2 c = [f; g]).
  { intros c. pose proof (pair_mats_len c_rsq 2 c) as L. generalize dependent (pair_mats c_rsq 2 c). intros l L. change (2 * (2 - 1)) with 2 in L. destruct l as [|f [|g [|h r]]]; try discriminate. exists f, g. reflexivity. }
  assert (V : forall c f g, pair_mats c_rsq 2 c = [f; g] -> f = nth 0 (pair_mats c_rsq 2 c) zmat /\ g = nth 1 (pair_mats c_rsq 2 c) zmat) by (intros c f g ->; split; reflexivity).
  unfold pauli_mats, pauli_ws, pauli_fss. cbn [Nat.eqb length].
  destruct (L k1) as (f & g & E1), (L Ci) as (f' & g' & E2). destruct (V _ _ _ E1) as [F1 F2], (V _ _ _ E2) as [F3 F4]. rewrite E1, E2. unfold mix. cbn [repeat combine map concat app fst snd z_mats seq]. 
  assert (Q3 : c_frac 3 = toC (/ 3)) by (unfold c_frac; f_equal; f_equal; cbn; lra).
  destruct (lt6 k Hk) as [->|[->|[->|[->|[->| ->]]]]]; cbn [nth]; unfold scaled; rewrite Q3; cbn [pq Nat.sub]; f_equal.
  - rewrite F1, pair_qubit by lia. clear -Ha Hb. assert (Hk : 0 < 2) by lia. destruct (lt2 _ Ha) as [-> | ->], (lt2 _ Hb) as [-> | ->]; apply cplx_eq; cbn -[IZR half]; ring.
  - rewrite F2, pair_qubit by lia. clear -Ha Hb. destruct (lt2 _ Ha) as [-> | ->], (lt2 _ Hb) as [-> | ->]; apply cplx_eq; cbn -[IZR half]; ring.
  - rewrite F3, pair_qubit by lia. clear -Ha Hb. destruct (lt2 _ Ha) as [-> | ->], (lt2 _ Hb) as [-> | ->]; apply cplx_eq; cbn -[IZR half]; ring.
  - rewrite F4, pair_qubit by lia. clear -Ha Hb. destruct (lt2 _ Ha) as [-> | ->], (lt2 _ Hb) as [-> | ->]; apply cplx_eq; cbn -[IZR half]; ring.
  - clear -Ha Hb. destruct (lt2 _ Ha) as [-> | ->], (lt2 _ Hb) as [-> | ->]; apply cplx_eq; cbn -[IZR half]; ring.
  - clear -Ha Hb. destruct (lt2 _ Ha) as [-> | ->], (lt2 _ Hb) as [-> | ->]; apply cplx_eq; cbn -[IZR half]; ring.
Qed.
(** The dual frame *)
Definition dual_data : list CS := 
  let h := (/ 2)%R in let t := (3 / 2)%R in
  [(h, 0); (h, 0); (h, 0); (h, 0); (2, 0); (-1, 0);
   (t, 0); (-t, 0); (0, -t); (0, t); (0, 0); (0, 0);
   (t, 0); (-t, 0); (0, t); (0, -t); (0, 0); (0, 0);
   (h, 0); (h, 0); (h, 0); (h, 0); (-1, 0); (2, 0)]%R.
Definition dual : nd CS := mkNd (K:=CS) [4; 6] dual_data.
Definition aq (k q : nat) : CS := pq k (q mod 2) (q / 2).
Lemma dual_penrose : penrose 6 4 aq (ent dual).
Proof.
  assert (Lt4 : forall k, k < 4 -> k = 0 \/ k = 1 \/ k = 2 \/ k = 3) by lia.
  assert (BA : eqm 4 4 (mul 6 (ent dual) aq) idm).
  { intros i j Hi Hj. destruct (Lt4 j Hj) as [->|[->|[->| ->]]]; destruct (Lt4 i Hi) as [->|[->|[->| ->]]]; apply cplx_eq; lazy -[Rplus Rmult Rminus Ropp IZR Rinv Rdiv]; field. }
  split; [|split; [|split]].
  - apply eqm_trans with (mul 4 aq idm); [apply (mul_ext 6 4 4); [apply eqm_refl|exact BA]|apply mul_id_r].
  - rewrite mulA. apply eqm_trans with (mul 4 idm (ent dual)); [apply (mul_ext 4 4 6); [exact BA|apply eqm_refl]|apply mul_id_l].
  - intros i j Hi Hj. destruct (lt6 j Hj) as [->|[->|[->|[->|[->| ->]]]]]; destruct (lt6 i Hi) as [->|[->|[->|[->|[->| ->]]]]]; apply cplx_eq; lazy -[Rplus Rmult Rminus Ropp IZR Rinv Rdiv]; field.
  - apply eqm_trans with (adj (K:=CS) idm); [apply adj_ext; exact BA|]. apply eqm_trans with (idm (K:=CS)); [|apply eqm_sym; exact BA].
    intros i j _ _. unfold adj, idm. rewrite delta_conj. apply delta_sym.
Qed.

Lemma penrose_ext m n (a a' b : nat -> nat -> CS) : eqm m n a a' -> penrose m n a b -> penrose m n a' b.
Proof.
  intros H (P1 & P2 & P3 & P4). pose proof (eqm_sym _ _ _ _ H) as H'.
  assert (AB : eqm m m (mul n a' b) (mul n a b)) by (apply (mul_ext m n m); [exact H'|apply eqm_refl]).
  assert (BA : eqm n n (mul m b a') (mul m b a)) by (apply (mul_ext n m n); [apply eqm_refl|exact H']).
  split; [|split; [|split]].
  - apply eqm_trans with (mul n a (mul m b a)); [apply (mul_ext m n n); assumption|]. apply eqm_trans with a; assumption.
  - apply eqm_trans with (mul m b (mul n a b)); [apply (mul_ext n m m); [apply eqm_refl|exact AB]|exact P2].
  - apply eqm_trans with (adj (mul n a b)); [apply adj_ext; exact AB|]. apply eqm_trans with (mul n a b); [exact P3|apply eqm_sym; exact AB].
  - apply eqm_trans with (adj (mul m b a)); [apply adj_ext; exact BA|]. apply eqm_trans with (mul m b a); [exact P4|apply eqm_sym; exact BA].
Qed.
Definition cs_dec (x y : CS) : {x = y} + {x <> y}.
Proof. destruct x as [a b], y as [c e]. destruct (Req_EM_T a c) as [->|H]; [destruct (Req_EM_T b e) as [->|H]; [left; reflexivity|]|]; right; intros E; injection E; auto. Defined.
Definition nd_dec (a b : nd CS) : {a = b} + {a <> b}.
Proof. destruct a as [s l], b as [s' l']. destruct (list_eq_dec Nat.eq_dec s s') as [->|H]; [destruct (list_eq_dec cs_dec l l') as [->|H]; [left; reflexivity|]|]; right; intros E; injection E; auto. Defined.
(** Answers for one matrix only *)
Definition pinv_one (m b a : nd CS) : res (nd CS) := if nd_dec a m then Ok b else Err LinAlgError.
Lemma pinv_one_sound m b r c : is_mat m r c -> is_mat b c r -> penrose r c (ent m) (ent b) -> pinv_sound (pinv_one m b).
Proof.
  intros Hm Hb P r' c' a Ha. unfold pinv_one. destruct (nd_dec a m) as [->|]; [|reflexivity]. destruct Hm as (S & _), Ha as (S' & _). rewrite S in S'. injection S' as <- <-. auto.
Qed.
Theorem pinv_example : exists pinv p b, pinv_sound pinv /\ cpauli_povm 2 = Ok p /\ linear_inversion_map pinv p = Ok b.
Proof.
  destruct pauli_qubit as (p & E & W & S & V). destruct (pmap_mat p 6 2 W S ltac:(lia) ltac:(lia)) as (m & Em & Hm & G & _).
  exists (pinv_one m dual), p, dual. split; [|split; [exact E|]].
  - apply (pinv_one_sound m dual 6 4); [exact Hm|split; [reflexivity|]; split; [reflexivity|lia]|]. apply (penrose_ext 6 4 aq); [|exact dual_penrose].
    intros k q Hk Hq. unfold aq, ent. assert (H1 : q / 2 < 2) by (apply Nat.div_lt_upper_bound; lia). pose proof (Nat.mod_upper_bound q 2 ltac:(lia)) as H2.
    replace q with (q / 2 * 2 + q mod 2) at 3 by (rewrite Nat.mul_comm; symmetry; apply Nat.div_mod; lia). rewrite G, V by assumption. reflexivity.
  - unfold linear_inversion_map. rewrite Em. cbn [bind]. unfold pinv_one. destruct (nd_dec m m); [reflexivity|congruence].
Qed.
