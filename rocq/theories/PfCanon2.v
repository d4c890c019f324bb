(** [canonicalize]. *)
From Verif Require Export PfCanon.

Section Canon.
Context {K : StarRing}.
Add Ring Kr : (k_ring K).

Lemma size_mat_lt (t : nd K) l p r : shp t = l :: p ++ [r] -> size (shp t) = l * size p * r.
Proof. intros ->. rewrite size_cons, size_app, size_single. lia. Qed.

Lemma removelast_shp (t : nd K) : lt_ok t -> removelast (shp t) = ldim t :: pdims t.
Proof. intros H. rewrite (lt_ok_shp t H). change (ldim t :: pdims t ++ [rdim t]) with ((ldim t :: pdims t) ++ [rdim t]). apply removelast_last. Qed.
Lemma tl_shp (t : nd K) : lt_ok t -> tl (shp t) = pdims t ++ [rdim t].
Proof. intros H. rewrite (lt_ok_shp t H). reflexivity. Qed.

(** Splitting off a matrix to the right. *)
Lemma split_left (t u q r : nd K) k : lt_ok t -> 0 < size (shp t) -> lt_ok u -> 0 < size (shp u) -> ldim u = rdim t ->
  shp q = [ldim t * size (pdims t); k] -> ndwf q -> shp r = [k; rdim t] -> ndwf r -> 0 < k ->
  let t' := reshape q (ldim t :: pdims t ++ [k]) in
  let u' := matdot r u in
  matdot_py r u = Ok u' /\ same_pair t u t' u' /\ rdim t' = k /\ 0 < size (shp t') /\ 0 < size (shp u') /\
  (forall a i b, a < ldim t -> inr i (pdims t) -> b < k -> ent t' a i b = get q [ravel (ldim t :: pdims t) (a :: i); b]) /\
  (forall c j b, c < k -> inr j (pdims u) -> b < rdim u -> ent u' c j b = bigsum (rdim t) (fun e => get r [c; e] * ent u e j b)%K).
Proof.
  intros Ht Pt Hu Pu El Sq Wq Sr Wr Hk t' u'.
  destruct (lten_spec q (ldim t) (pdims t) _ k Sq Wq eq_refl) as [A1 [A2 [A3 [A4 [A5 [A6 A7]]]]]].
  destruct (matdot_left r u k (rdim t) Sr Wr Hu El) as [B1 [B2 [B3 [B4 [B5 B6]]]]].
  fold t' in A1, A2, A3, A4, A5, A6, A7. fold u' in B1, B2, B3, B4, B5, B6.
  rewrite (size_lt t Ht) in Pt. rewrite (size_lt u Hu) in Pu.
  split; [exact B1|]. split; [unfold same_pair; rewrite A4, B3; auto 10|]. split; [exact A4|].
  split; [rewrite A5; nia|]. split; [rewrite (size_lt u' B2), B3, B4, B5; nia|]. split; [exact A6|exact B6].
Qed.

Lemma cont_left (t u t' u' : nd K) (f : nat -> nat -> K) :
  same_pair t u t' u' -> ldim u = rdim t ->
  (forall a i b, a < ldim t -> inr i (pdims t) -> b < rdim t -> ent t a i b = bigsum (rdim t') (fun c => ent t' a i c * f c b)%K) ->
  (forall c j b, c < rdim t' -> inr j (pdims u) -> b < rdim u -> ent u' c j b = bigsum (rdim t) (fun e => f c e * ent u e j b)%K) ->
  same_cont t u t' u'.
Proof.
  intros [_ _] El H1 H2 a i j b Ha Hi Hj Hb.
  transitivity (bigsum (rdim t') (fun c => bigsum (rdim t) (fun e => ent t' a i c * f c e * ent u e j b))%K).
  - apply bigsum_ext. intros c Hc. rewrite (H2 c j b Hc Hj Hb), <- bigsum_mul_l. apply bigsum_ext. intros e He. ring.
  - rewrite bigsum_swap. apply bigsum_ext. intros e He. rewrite (H1 a i e Ha Hi He), bigsum_mul_r. reflexivity.
Qed.

(** Splitting off a matrix to the left. *)
Lemma split_right (t u q r : nd K) k : lt_ok t -> 0 < size (shp t) -> lt_ok u -> 0 < size (shp u) -> ldim u = rdim t ->
  shp q = [k; size (pdims u) * rdim u] -> ndwf q -> shp r = [rdim t; k] -> ndwf r -> 0 < k ->
  let t' := matdot t r in
  let u' := reshape q (k :: pdims u ++ [rdim u]) in
  matdot_py t r = Ok t' /\ same_pair t u t' u' /\ rdim t' = k /\ 0 < size (shp t') /\ 0 < size (shp u') /\
  (forall c j b, c < k -> inr j (pdims u) -> b < rdim u -> ent u' c j b = get q [c; ravel (pdims u ++ [rdim u]) (j ++ [b])]) /\
  (forall a i c, a < ldim t -> inr i (pdims t) -> c < k -> ent t' a i c = bigsum (rdim t) (fun e => ent t a i e * get r [e; c])%K).
Proof.
  intros Ht Pt Hu Pu El Sq Wq Sr Wr Hk t' u'.
  destruct (rten_spec q (pdims u) (rdim u) k _ Sq Wq eq_refl) as [A1 [A2 [A3 [A4 [A5 [A6 A7]]]]]].
  destruct (matdot_right t r (rdim t) k Sr Wr Ht eq_refl) as [B1 [B2 [B3 [B4 [B5 B6]]]]].
  fold u' in A1, A2, A3, A4, A5, A6, A7. fold t' in B1, B2, B3, B4, B5, B6.
  rewrite (size_lt t Ht) in Pt. rewrite (size_lt u Hu) in Pu.
  split; [exact B1|]. split; [unfold same_pair; rewrite A2, B5; auto 10|]. split; [exact B5|].
  split; [rewrite (size_lt t' B2), B3, B4, B5; nia|]. split; [rewrite A5; nia|]. split; [exact A6|exact B6].
Qed.

Lemma cont_right (t u t' u' : nd K) (f : nat -> nat -> K) :
  same_pair t u t' u' -> ldim u = rdim t ->
  (forall c j b, c < ldim u -> inr j (pdims u) -> b < rdim u -> ent u c j b = bigsum (rdim t') (fun e => f c e * ent u' e j b)%K) ->
  (forall a i c, a < ldim t -> inr i (pdims t) -> c < rdim t' -> ent t' a i c = bigsum (rdim t) (fun e => ent t a i e * f e c)%K) ->
  same_cont t u t' u'.
Proof.
  intros [_ _] El H1 H2 a i j b Ha Hi Hj Hb.
  transitivity (bigsum (rdim t') (fun c => bigsum (rdim t) (fun e => ent t a i e * f e c * ent u' c j b))%K).
  - apply bigsum_ext. intros c Hc. rewrite (H2 a i c Ha Hi Hc), <- bigsum_mul_r. apply bigsum_ext. intros e He. ring.
  - rewrite bigsum_swap. apply bigsum_ext. intros e He. rewrite H1 by (auto; lia). rewrite <- bigsum_mul_l.
    apply bigsum_ext. intros c Hc. ring.
Qed.

Section WithQR.
Variable qr : nd K -> res (nd K * nd K).
Hypothesis Hqr : qr_sound qr.
Notation F := (qr_fails qr).

(** One step to the right. *)
Lemma rcanon_step_spec l r (x1 x2 : list (nd K)) t u cl cr :
  chain_ok (x1 ++ t :: u :: x2) l r -> cl = Z.of_nat (length x1) ->
  outc F (rcanon_step qr (mkLt (x1 ++ t :: u :: x2) cl cr) cl)
    (fun z => sim l r (mkLt (x1 ++ t :: u :: x2) cl cr) z /\
       lcan z = (cl + 1)%Z /\ rcan z = Z.max (cl + 2) cr).
Proof.
  intros HC Ek. pose proof HC as [Hne [B P]]. pose proof (bonds_two _ _ _ _ _ _ B) as [B1 [Ht [Hu [El B2]]]].
  unfold pos in P. pose proof P as P'. apply Forall_app in P'. destruct P' as [_ P']. inversion P' as [|? ? Pt P'']; subst. inversion P'' as [|? ? Pu _]; subst. clear P' P''.
  unfold rcanon_step. cbn [lts]. rewrite pyget_at by reflexivity. cbn [bind].
  rewrite (shape_last_lt t Ht). cbn [bind]. rewrite (lmat_reshape t Ht Pt). cbn [bind].
  pose proof (lmat_is_mat t Ht Pt) as M. destruct M as [_ [_ [Pm Pn]]].
  eapply outc_bind; [apply qr_outc; [exact Hqr|apply lmat_is_mat; assumption]|].
  intros [q rr] [Sq [Wq [Sr [Wr [G O]]]]]. cbn [fst snd] in *.
  set (k := Nat.min (ldim t * size (pdims t)) (rdim t)) in *. assert (Hk : 0 < k) by (unfold k; lia).
  rewrite (removelast_shp t Ht). rewrite (lten_reshape q (ldim t) (pdims t) _ k Sq eq_refl Pm). cbn [bind].
  replace (Z.of_nat (length x1) + 1)%Z with (Z.of_nat (S (length x1))) by lia.
  replace (x1 ++ t :: u :: x2) with ((x1 ++ [t]) ++ u :: x2) at 1 by (rewrite <- app_assoc; reflexivity).
  rewrite pyget_at by (rewrite app_length; cbn; lia). cbn [bind].
  destruct (split_left t u q rr k Ht Pt Hu Pu El Sq Wq Sr Wr Hk) as [D1 [D2 [D3 [D4 [D5 [D6 D7]]]]]].
  rewrite D1. cbn [bind]. set (t' := reshape q (ldim t :: pdims t ++ [k])) in *. set (u' := matdot rr u) in *.
  pose proof D2 as [S1 [S2 [S3 [S4 [S5 [S6 S7]]]]]].
  rewrite update_two by (auto; congruence). cbn zeta. unfold upd_form. cbn [flag_is String.eqb Ascii.eqb Bool.eqb].
  rewrite Z.sub_diag. change (0 <=? 0)%Z with true. cbn [andb fst snd].
  apply outc_ok. cbn [lcan rcan]. split; [|split; lia].
  assert (LI : left_iso t').
  { destruct (lten_spec q (ldim t) (pdims t) _ k Sq Wq eq_refl) as [_ [_ [_ [_ [_ [_ L]]]]]]. apply L. exact O. }
  apply sim_two; auto.
  - apply (cont_left t u t' u' (fun c b => get rr [c; b])); auto.
    + intros a i b Ha Hi Hb. rewrite <- (get_lmat t a i b Ht Ha Hi Hb). rewrite G by (auto; cbn [ravel]; pose proof (ravel_lt _ _ Hi); nia).
      rewrite D3. apply bigsum_ext. intros c Hc. rewrite D6 by assumption. reflexivity.
    + rewrite D3. exact D7.
  - rewrite D3. unfold k. lia.
  - intros CT. apply (canon_two left_iso right_iso x1 x2 t u t' u' _ _ _ _ CT); try lia. intros _. exact LI.
  - intros CT. apply (canon_two tall wide x1 x2 t u t' u' _ _ _ _ CT); try lia. intros _. unfold tall. rewrite D3, S3, S4. unfold k. lia.
Qed.

(** One step to the left. *)
Lemma lcanon_step_spec l r (x1 x2 : list (nd K)) t u cl cr :
  chain_ok (x1 ++ t :: u :: x2) l r -> cr = (Z.of_nat (length x1) + 2)%Z ->
  outc F (lcanon_step qr (mkLt (x1 ++ t :: u :: x2) cl cr) (cr - 1))
    (fun z => sim l r (mkLt (x1 ++ t :: u :: x2) cl cr) z /\
       lcan z = Z.min (cr - 2) cl /\ rcan z = (cr - 1)%Z).
Proof.
  intros HC Ek. pose proof HC as [Hne [B P]]. pose proof (bonds_two _ _ _ _ _ _ B) as [B1 [Ht [Hu [El B2]]]].
  unfold pos in P. pose proof P as P'. apply Forall_app in P'. destruct P' as [_ P']. inversion P' as [|? ? Pt P'']; subst. inversion P'' as [|? ? Pu _]; subst. clear P' P''.
  unfold lcanon_step. cbn [lts].
  replace (Z.of_nat (length x1) + 2 - 1)%Z with (Z.of_nat (S (length x1))) by lia.
  replace (x1 ++ t :: u :: x2) with ((x1 ++ [t]) ++ u :: x2) at 1 by (rewrite <- app_assoc; reflexivity).
  rewrite pyget_at by (rewrite app_length; cbn; lia). cbn [bind].
  rewrite (shape0_lt u Hu). cbn [bind]. rewrite (rmat_reshape u Hu Pu). cbn [bind].
  pose proof (rmat_is_mat u Hu Pu) as [_ [_ [Pm Pn]]].
  destruct (mat_T_spec (rmat u) (ldim u) (size (pdims u) * rdim u) eq_refl) as [T1 [T2 T3]].
  eapply outc_bind; [apply (qr_outc qr (size (pdims u) * rdim u) (ldim u)); [exact Hqr|split; auto]|].
  intros [q rr] [Sq [Wq [Sr [Wr [G O]]]]]. cbn [fst snd] in *.
  set (k := Nat.min (size (pdims u) * rdim u) (ldim u)) in *. assert (Hk : 0 < k) by (unfold k; lia).
  replace (Z.of_nat (S (length x1)) - 1)%Z with (Z.of_nat (length x1)) by lia.
  rewrite pyget_at by reflexivity. cbn [bind].
  destruct (mat_T_spec rr k (ldim u) Sr) as [U1 [U2 U3]]. destruct (mat_T_spec q _ k Sq) as [V1 [V2 V3]].
  rewrite El in U1.
  destruct (split_right t u (mat_T q) (mat_T rr) k Ht Pt Hu Pu El V1 V2 U1 U2 Hk) as [D1 [D2 [D3 [D4 [D5 [D6 D7]]]]]].
  rewrite D1. cbn [bind]. rewrite (tl_shp u Hu). rewrite (rten_reshape (mat_T q) (pdims u) (rdim u) k _ V1 eq_refl Pn). cbn [bind].
  set (t' := matdot t (mat_T rr)) in *. set (u' := reshape (mat_T q) (k :: pdims u ++ [rdim u])) in *.
  pose proof D2 as [S1 [S2 [S3 [S4 [S5 [S6 S7]]]]]].
  replace (Z.of_nat (S (length x1)) + 1)%Z with (Z.of_nat (length x1) + 2)%Z by lia.
  rewrite update_two by (auto; congruence). cbn zeta. unfold upd_form. cbn [flag_is String.eqb Ascii.eqb Bool.eqb].
  cbn [andb fst snd].
  replace (-1 <=? Z.of_nat (length x1) + 1 - Z.max (Z.of_nat (length x1) + 1) (Z.of_nat (length x1) + 2))%Z with true by (symmetry; apply Z.leb_le; lia).
  cbn [fst snd].
  apply outc_ok. cbn [lcan rcan]. split; [|split; lia].
  assert (RI : right_iso u').
  { destruct (rten_spec (mat_T q) (pdims u) (rdim u) k _ V1 V2 eq_refl) as [_ [_ [_ [_ [_ [_ L]]]]]]. apply L.
    intros c d Hc Hd. rewrite delta_sym, <- (O d c Hd Hc). apply bigsum_ext. intros i Hi. rewrite !V3 by assumption. ring. }
  apply sim_two; auto.
  - apply (cont_right t u t' u' (fun c e => get rr [e; c])); auto.
    + intros c j b Hc Hj Hb. rewrite <- (get_rmat u c j b Hu Hc Hj Hb).
      assert (Hr : ravel (pdims u ++ [rdim u]) (j ++ [b]) < size (pdims u) * rdim u).
      { rewrite <- (size_single (rdim u)) at 2. rewrite <- size_app. apply ravel_lt. apply inr_app; [exact Hj|apply inr_single; exact Hb]. }
      rewrite <- T3 by assumption. rewrite G by assumption. rewrite D3. apply bigsum_ext. intros e He.
      rewrite D6 by assumption. rewrite V3 by assumption. ring.
    + intros a i c Ha Hi Hc. rewrite D3 in Hc. rewrite D7 by assumption. apply bigsum_ext. intros e He. rewrite U3 by (auto; lia). reflexivity.
  - rewrite D3. unfold k. lia.
  - intros CT. apply (canon_two left_iso right_iso x1 x2 t u t' u' _ _ _ _ CT); try lia. intros _. exact RI.
  - intros CT. apply (canon_two tall wide x1 x2 t u t' u' _ _ _ _ CT); try lia.
    intros _. unfold wide. rewrite <- S5, D3, S6, S7. unfold k. lia.
Qed.

Lemma split_at2 (ts : list (nd K)) k : k + 1 < length ts -> exists x1 t u x2, ts = x1 ++ t :: u :: x2 /\ length x1 = k.
Proof.
  intros H. exists (firstn k ts), (nth k ts dummy), (nth (S k) ts dummy), (skipn (S (S k)) ts). split.
  - rewrite (split_nth _ k ts dummy) at 1 by lia. f_equal. f_equal. clear -H. revert k H.
    induction ts as [|y ts IH]; intros k H; cbn [length] in H; [lia|]. destruct k as [|k].
    + destruct ts as [|w ts]; [cbn in H; lia|]. reflexivity.
    + apply (IH k). lia.
  - rewrite firstn_length. lia.
Qed.

Lemma pyrange_up a b : (a <= b)%Z -> pyrange a b 1 = map (fun k => (a + Z.of_nat k)%Z) (seq 0 (Z.to_nat (b - a))).
Proof.
  intros H. unfold pyrange, range_len. change (0 <? 1)%Z with true. cbn iota. rewrite Z.div_1_r.
  replace (b - a + 1 - 1)%Z with (b - a)%Z by lia. apply map_ext. intros k. lia.
Qed.
Lemma pyrange_empty a b : (b <= a)%Z -> pyrange a b 1 = [].
Proof.
  intros H. unfold pyrange, range_len. change (0 <? 1)%Z with true. cbn iota. rewrite Z.div_1_r.
  replace (Z.to_nat (b - a + 1 - 1)) with 0 by lia. reflexivity.
Qed.
Lemma pyrange_down a b : (b <= a)%Z -> pyrange a b (-1) = map (fun k => (a - Z.of_nat k)%Z) (seq 0 (Z.to_nat (a - b))).
Proof.
  intros H. unfold pyrange, range_len. change (0 <? -1)%Z with false. cbn iota. change (- -1)%Z with 1%Z. rewrite Z.div_1_r.
  replace (a - b - -1 - 1)%Z with (a - b)%Z by lia. apply map_ext. intros k. lia.
Qed.
Lemma pyrange_down_empty a b : (a <= b)%Z -> pyrange a b (-1) = [].
Proof.
  intros H. unfold pyrange, range_len. change (0 <? -1)%Z with false. cbn iota. change (- -1)%Z with 1%Z. rewrite Z.div_1_r.
  replace (Z.to_nat (a - b - -1 - 1)) with 0 by lia. reflexivity.
Qed.

Lemma seq_map_shift (A : Type) (f : nat -> A) n : map f (seq 0 (S n)) = f 0 :: map (fun k => f (S k)) (seq 0 n).
Proof. cbn [seq map]. f_equal. rewrite <- seq_shift, map_map. reflexivity. Qed.

Lemma rcanon_loop l r n : forall x, chain_ok (lts x) l r -> (0 <= lcan x)%Z -> (lcan x + Z.of_nat n < Z.of_nat (llen x))%Z ->
  outc F (foldM (rcanon_step qr) (map (fun k => (lcan x + Z.of_nat k)%Z) (seq 0 n)) x)
    (fun z => sim l r x z /\ lcan z = (lcan x + Z.of_nat n)%Z /\ rcan z = if Nat.eqb n 0 then rcan x else Z.max (lcan x + Z.of_nat n + 1) (rcan x)).
Proof.
  induction n as [|n IH]; intros x HC H0 Hn.
  - cbn [seq map foldM]. apply outc_ok. split; [apply sim_refl; exact HC|]. split; [lia|reflexivity].
  - rewrite seq_map_shift. cbn [foldM]. rewrite Z.add_0_r.
    destruct (split_at2 (lts x) (Z.to_nat (lcan x))) as [x1 [t [u [x2 [E L]]]]]; [unfold llen in Hn; lia|].
    destruct x as [ts cl cr]. cbn [lts lcan rcan] in *. subst ts.
    eapply outc_bind; [apply (rcanon_step_spec l r x1 x2 t u cl cr HC); lia|].
    intros z [S [El Er]]. pose proof (sim_len _ _ _ _ S) as Len. pose proof S as [HC' _].
    replace (map (fun k => (cl + Z.of_nat (Datatypes.S k))%Z) (seq 0 n)) with (map (fun k => (lcan z + Z.of_nat k)%Z) (seq 0 n))
      by (apply map_ext; intros; lia).
    eapply outc_weaken; [apply (IH z HC'); rewrite ?El, ?Len; lia|auto|].
    intros y [S' [El' Er']]. split; [eapply sim_trans; eassumption|]. split; [lia|].
    cbn [Nat.eqb]. rewrite Er', El, Er. destruct (Nat.eqb_spec n 0); lia.
Qed.

Lemma lcanon_loop l r n : forall x, chain_ok (lts x) l r -> (rcan x <= Z.of_nat (llen x))%Z -> (Z.of_nat n < rcan x)%Z ->
  outc F (foldM (lcanon_step qr) (map (fun k => (rcan x - 1 - Z.of_nat k)%Z) (seq 0 n)) x)
    (fun z => sim l r x z /\ rcan z = (rcan x - Z.of_nat n)%Z /\ lcan z = if Nat.eqb n 0 then lcan x else Z.min (rcan x - Z.of_nat n - 1) (lcan x)).
Proof.
  induction n as [|n IH]; intros x HC H0 Hn.
  - cbn [seq map foldM]. apply outc_ok. split; [apply sim_refl; exact HC|]. split; [lia|reflexivity].
  - rewrite seq_map_shift. cbn [foldM]. rewrite Z.sub_0_r.
    destruct (split_at2 (lts x) (Z.to_nat (rcan x - 2))) as [x1 [t [u [x2 [E L]]]]]; [unfold llen in H0; lia|].
    destruct x as [ts cl cr]. cbn [lts lcan rcan] in *. subst ts.
    eapply outc_bind; [apply (lcanon_step_spec l r x1 x2 t u cl cr HC); lia|].
    intros z [S [El Er]]. pose proof (sim_len _ _ _ _ S) as Len. pose proof S as [HC' _].
    replace (map (fun k => (cr - 1 - Z.of_nat (Datatypes.S k))%Z) (seq 0 n)) with (map (fun k => (rcan z - 1 - Z.of_nat k)%Z) (seq 0 n))
      by (apply map_ext; intros; lia).
    eapply outc_weaken; [apply (IH z HC'); rewrite ?Er, ?Len; lia|auto|].
    intros y [S' [Er' El']]. split; [eapply sim_trans; eassumption|]. split; [lia|].
    cbn [Nat.eqb]. rewrite El', El, Er. destruct (Nat.eqb_spec n 0); lia.
Qed.

(** ** [_rcanonicalize], [_lcanonicalize] *)
Lemma rcanonicalize_spec l r x to : chain_ok (lts x) l r -> (0 <= lcan x)%Z -> (0 <= to < Z.of_nat (llen x))%Z ->
  outc F (rcanonicalize qr x to)
    (fun z => sim l r x z /\ lcan z = Z.max (lcan x) to /\ rcan z = if (lcan x <? to)%Z then Z.max (to + 1) (rcan x) else rcan x).
Proof.
  intros HC H0 Ht. unfold rcanonicalize.
  replace ((0 <=? to)%Z && (to <? Z.of_nat (llen x))%Z) with true by (symmetry; apply andb_true_iff; lia). unfold passert.
  destruct (Z.ltb_spec (lcan x) to) as [H|H].
  - rewrite pyrange_up by lia.
    eapply outc_weaken; [apply (rcanon_loop l r); auto; lia|auto|]. intros z [S [El Er]]. split; [exact S|]. split; [lia|].
    rewrite Er. destruct (Nat.eqb_spec (Z.to_nat (to - lcan x)) 0); [lia|]. lia.
  - rewrite pyrange_empty by lia. cbn [foldM]. apply outc_ok. split; [apply sim_refl; exact HC|]. split; [lia|reflexivity].
Qed.

Lemma lcanonicalize_spec l r x to : chain_ok (lts x) l r -> (rcan x <= Z.of_nat (llen x))%Z -> (0 < to <= Z.of_nat (llen x))%Z ->
  outc F (lcanonicalize qr x to)
    (fun z => sim l r x z /\ rcan z = Z.min (rcan x) to /\ lcan z = if (to <? rcan x)%Z then Z.min (to - 1) (lcan x) else lcan x).
Proof.
  intros HC H0 Ht. unfold lcanonicalize.
  replace ((0 <? to)%Z && (to <=? Z.of_nat (llen x))%Z) with true by (symmetry; apply andb_true_iff; lia). unfold passert.
  destruct (Z.ltb_spec to (rcan x)) as [H|H].
  - rewrite pyrange_down by lia.
    replace (rcan x - 1 - (to - 1))%Z with (rcan x - to)%Z by lia.
    eapply outc_weaken; [apply (lcanon_loop l r); auto; lia|auto|]. intros z [S [El Er]]. split; [exact S|]. split; [lia|].
    rewrite Er. destruct (Nat.eqb_spec (Z.to_nat (rcan x - to)) 0); [lia|]. lia.
  - rewrite pyrange_down_empty by lia. cbn [foldM]. apply outc_ok. split; [apply sim_refl; exact HC|]. split; [lia|reflexivity].
Qed.

(** ** [canonicalize] *)
(** The integer an argument stands for, before and after the addition of [n] to
    negative values. *)
Definition left_target (n : Z) (c : carg) : Z := match c with CANone => 0 | CAFull => n - 1 | CAInt z => if (z <? 0)%Z then z + n else z end.
Definition right_target (n : Z) (c : carg) : Z := match c with CANone => n | CAFull => 1 | CAInt z => if (z <? 0)%Z then z + n else z end.

Lemma canonicalize_eq (x : ltens K) left right : ~ (left = CANone /\ right = CANone) -> lts x <> [] ->
  canonicalize qr x left right =
  let n := Z.of_nat (llen x) in
  let tl := left_target n left in
  let tr := right_target n right in
  if negb ((0 <=? tl)%Z && (tl <=? n)%Z) then Err IndexError
  else if negb ((0 <=? tr)%Z && (tr <=? n)%Z) then Err IndexError
  else if negb (tl <? tr)%Z then Err ValueError
  else
    do x1 <- (if (lcan x <? tl)%Z then rcanonicalize qr x tl else Ok x);
    if (tr <? rcan x)%Z then lcanonicalize qr x1 tr else Ok x1.
Proof.
  intros H Hne. assert (0 < llen x) by (unfold llen; destruct (lts x); [congruence|cbn; lia]).
  unfold canonicalize, canonical_form. cbn zeta.
  assert (E1 : forall c, (if ((match c with CANone => 0 | CAFull => Z.of_nat (llen x) - 1 | CAInt z => z end) <? 0)%Z
     then ((match c with CANone => 0 | CAFull => Z.of_nat (llen x) - 1 | CAInt z => z end) + Z.of_nat (llen x))%Z
     else match c with CANone => 0 | CAFull => Z.of_nat (llen x) - 1 | CAInt z => z end)%Z = left_target (Z.of_nat (llen x)) c).
  { intros [| |z]; cbn [left_target]; [reflexivity| |reflexivity]. destruct (Z.ltb_spec (Z.of_nat (llen x) - 1) 0); lia. }
  assert (E2 : forall c, (if ((match c with CANone => Z.of_nat (llen x) | CAFull => 1 | CAInt z => z end) <? 0)%Z
     then ((match c with CANone => Z.of_nat (llen x) | CAFull => 1 | CAInt z => z end) + Z.of_nat (llen x))%Z
     else match c with CANone => Z.of_nat (llen x) | CAFull => 1 | CAInt z => z end)%Z = right_target (Z.of_nat (llen x)) c).
  { intros [| |z]; cbn [right_target]; [|reflexivity|reflexivity]. destruct (Z.ltb_spec (Z.of_nat (llen x)) 0); lia. }
  destruct left, right; try (exfalso; apply H; auto; fail); rewrite <- ?E1, <- ?E2; reflexivity.
Qed.

(** The recorded form may also be [len] on the left or [0] on the right: honest
    updates of the outermost sites lead there. *)
Definition cform_wk (x : ltens K) : Prop := (0 <= lcan x <= Z.of_nat (llen x))%Z /\ (0 <= rcan x <= Z.of_nat (llen x))%Z.
Lemma cform_ok_wk x : cform_ok x -> cform_wk x.
Proof. unfold cform_ok, cf_ok, cform_wk. lia. Qed.

Theorem canonicalize_spec l r x left right : chain_ok (lts x) l r -> cform_wk x ->
  ~ (left = CANone /\ right = CANone) ->
  let n := Z.of_nat (llen x) in
  let tl := left_target n left in
  let tr := right_target n right in
  (0 <= tl)%Z -> (tl < tr)%Z -> (tr <= n)%Z ->
  outc F (canonicalize qr x left right)
    (fun z => sim l r x z /\ cform_wk z /\ (cform_ok x -> cform_ok z) /\
       lcan z = (if (tr <? rcan x)%Z then Z.min (Z.max (lcan x) tl) (tr - 1) else Z.max (lcan x) tl) /\
       rcan z = (if (tr <? rcan x)%Z then tr else if (lcan x <? tl)%Z then Z.max (tl + 1) (rcan x) else rcan x)).
Proof.
  intros HC [HF1 HF2] Hd n tl tr H1 H2 H3. rewrite canonicalize_eq by (auto; apply HC). cbn zeta. fold n tl tr.
  replace ((0 <=? tl)%Z && (tl <=? n)%Z) with true by (symmetry; apply andb_true_iff; lia).
  replace ((0 <=? tr)%Z && (tr <=? n)%Z) with true by (symmetry; apply andb_true_iff; lia).
  replace (tl <? tr)%Z with true by (symmetry; apply Z.ltb_lt; lia). cbn [negb].
  apply outc_bind with (P := fun z => sim l r x z /\ lcan z = Z.max (lcan x) tl /\ rcan z = if (lcan x <? tl)%Z then Z.max (tl + 1) (rcan x) else rcan x).
  - destruct (Z.ltb_spec (lcan x) tl) as [H|H].
    + eapply outc_weaken; [apply (rcanonicalize_spec l r); auto; unfold n in *; lia|auto|].
      intros z [S [El Er]]. split; [exact S|]. split; [exact El|]. rewrite Er. destruct (Z.ltb_spec (lcan x) tl); [reflexivity|lia].
    + apply outc_ok. split; [apply sim_refl; exact HC|]. split; [lia|reflexivity].
  - intros z [S [El Er]]. pose proof (sim_len _ _ _ _ S) as Len. destruct (Z.ltb_spec tr (rcan x)) as [H|H].
    + pose proof S as [HC' _].
      eapply outc_weaken; [apply (lcanonicalize_spec l r z tr HC'); rewrite ?Len; fold n; try lia|auto|].
      * rewrite Er. destruct (Z.ltb_spec (lcan x) tl); unfold n in *; lia.
      * intros y [S' [Er' El']]. split; [eapply sim_trans; eassumption|].
        pose proof (sim_len _ _ _ _ S') as Len'.
        assert (R : (tr < rcan z)%Z) by (rewrite Er; destruct (Z.ltb_spec (lcan x) tl); lia).
        rewrite Er', El'. destruct (Z.ltb_spec tr (rcan z)); [|lia].
        unfold cform_ok, cf_ok, cform_wk. rewrite El', Er', Len', Len. fold n. destruct (Z.ltb_spec tr (rcan z)); lia.
    + apply outc_ok. split; [exact S|]. unfold cform_ok, cf_ok, cform_wk. rewrite El, Er, Len. fold n.
      destruct (Z.ltb_spec (lcan x) tl); unfold n in *; lia.
Qed.

Theorem canonicalize_default_spec l r x : chain_ok (lts x) l r -> cform_wk x ->
  outc F (canonicalize qr x CANone CANone)
    (fun z => sim l r x z /\ cform_wk z /\ (cform_ok x -> cform_ok z) /\
       if (lcan x <? Z.of_nat (llen x) - rcan x)%Z
       then rcan z = Z.min (rcan x) 1 /\ lcan z = (if (1 <? rcan x)%Z then 0 else lcan x)%Z
       else lcan z = Z.max (lcan x) (Z.of_nat (llen x) - 1) /\ rcan z = (if (lcan x <? Z.of_nat (llen x) - 1)%Z then Z.of_nat (llen x) else rcan x)).
Proof.
  intros HC [HF1 HF2]. unfold canonicalize, canonical_form. cbn zeta.
  assert (0 < llen x) by (destruct HC as [Hne _]; unfold llen; destruct (lts x); [congruence|cbn; lia]).
  destruct (Z.ltb_spec (lcan x) (Z.of_nat (llen x) - rcan x)) as [H1|H1].
  - eapply outc_weaken; [apply (lcanonicalize_spec l r); auto; lia|auto|]. intros z [S [Er El]]. split; [exact S|].
    pose proof (sim_len _ _ _ _ S) as Len. unfold cform_ok, cf_ok, cform_wk. rewrite Er, El, Len. destruct (Z.ltb_spec 1 (rcan x)); lia.
  - eapply outc_weaken; [apply (rcanonicalize_spec l r); auto; lia|auto|]. intros z [S [El Er]]. split; [exact S|].
    pose proof (sim_len _ _ _ _ S) as Len. unfold cform_ok, cf_ok, cform_wk. rewrite Er, El, Len. destruct (Z.ltb_spec (lcan x) (Z.of_nat (llen x) - 1)); lia.
Qed.

Theorem canonicalize_errors x left right : lts x <> [] -> ~ (left = CANone /\ right = CANone) ->
  let n := Z.of_nat (llen x) in
  let tl := left_target n left in
  let tr := right_target n right in
  (~ (0 <= tl <= n /\ 0 <= tr <= n)%Z -> canonicalize qr x left right = Err IndexError) /\
  ((0 <= tl <= n /\ 0 <= tr <= n)%Z -> (tr <= tl)%Z -> canonicalize qr x left right = Err ValueError).
Proof.
  intros Hne Hd n tl tr. rewrite canonicalize_eq by auto. cbn zeta. fold n tl tr. split.
  - intros H. destruct ((0 <=? tl)%Z && (tl <=? n)%Z) eqn:E1; [|reflexivity].
    destruct ((0 <=? tr)%Z && (tr <=? n)%Z) eqn:E2; [|reflexivity]. exfalso. apply H. apply andb_true_iff in E1, E2. lia.
  - intros H1 H2. replace ((0 <=? tl)%Z && (tl <=? n)%Z) with true by (symmetry; apply andb_true_iff; lia).
    replace ((0 <=? tr)%Z && (tr <=? n)%Z) with true by (symmetry; apply andb_true_iff; lia).
    replace (tl <? tr)%Z with false by (symmetry; apply Z.ltb_ge; lia). reflexivity.
Qed.
End WithQR.
End Canon.
