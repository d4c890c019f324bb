(** SVD compression without relerr and with [svdfunc = truncated_svd] (the default)
    is SVD compression with a relerr that keeps everything. *)
From Verif Require Export PfTrunc.

Section Default.
Context {K : StarRing}.
Variable svd : nd K -> res (nd K * list K * nd K).
Hypothesis Hsvd : svd_sound svd.
Variable rank : nat.
Hypothesis Hrank : 0 < rank.

Definition keep_all (s : list K) : nat := S (length s).
Notation tsvd := (truncated_svd svd).

Lemma take_cols_idem k (u : nd K) : take_cols k (take_cols k u) = take_cols k u.
Proof.
  unfold take_cols. cbn [shp tab nth]. rewrite Nat.min_assoc, Nat.min_id. apply tab_ext. intros i Hi. apply get_tab, Hi.
Qed.
Lemma take_rows_idem k (u : nd K) : take_rows k (take_rows k u) = take_rows k u.
Proof.
  unfold take_rows. cbn [shp tab nth]. rewrite Nat.min_assoc, Nat.min_id. apply tab_ext. intros i Hi. apply get_tab, Hi.
Qed.

Lemma svd_site_default a m n u s v k : is_mat a m n -> svd_site svd tsvd rank None a = Ok (u, s, v, k) ->
  exists u0 s0 v0, svd_site svd tsvd rank (Some keep_all) a = Ok (u0, s0, v0, k) /\ u = take_cols k u0 /\ s = firstn k s0 /\ v = take_rows k v0.
Proof.
  intros Ha E. cbn [svd_site] in *. unfold truncated_svd in E. pose proof (Hsvd m n a Ha) as H.
  destruct (svd a) as [[[u0 s0] v0]|e]; [|discriminate]. cbn [bind] in *. destruct H as [_ [_ [L _]]]. destruct Ha as [Hs _].
  injection E as <- <- <- <-. exists u0, s0, v0. rewrite firstn_length.
  assert (Ek : Nat.min (Nat.min rank (length s0)) (length s0) = Nat.min rank (length s0)) by lia. rewrite Ek. split; [|auto].
  f_equal. f_equal. rewrite Hs. cbn [nth]. unfold keep_all. lia.
Qed.

Lemma csvd_r_default l r x1 t w x2 cl cr z s k : chain_ok (x1 ++ t :: w :: x2) l r ->
  csvd_r_step svd tsvd rank None (mkLt (x1 ++ t :: w :: x2) cl cr) (Z.of_nat (length x1)) = Ok (z, (s, k)) ->
  exists s0, csvd_r_step svd tsvd rank (Some keep_all) (mkLt (x1 ++ t :: w :: x2) cl cr) (Z.of_nat (length x1)) = Ok (z, (s0, k)).
Proof.
  intros HC E. pose proof HC as [Hne [B Pp]]. pose proof (bonds_two _ _ _ _ _ _ B) as [B1 [Ht [Hu [El B2]]]].
  unfold pos in Pp. pose proof Pp as P'. apply Forall_app in P'. destruct P' as [P1 P']. inversion P' as [|? ? Pt P'']; subst. clear P' P''.
  unfold csvd_r_step, csvd_r_factor in *. cbn [lts] in *. rewrite pyget_at in * by reflexivity. cbn [bind] in *.
  rewrite (shape_last_lt t Ht) in *. cbn [bind] in *. rewrite (lmat_reshape t Ht Pt) in *. cbn [bind] in *.
  pose proof (lmat_is_mat t Ht Pt) as M.
  destruct (svd_site svd tsvd rank None (lmat t)) as [[[[u1 s1] v1] k1]|e] eqn:ES; [|discriminate].
  destruct (svd_site_default _ _ _ _ _ _ _ M ES) as [u0 [s0 [v0 [E0 [-> [-> ->]]]]]]. rewrite E0. cbn [bind] in *.
  rewrite take_cols_idem, take_rows_idem, firstn_firstn, Nat.min_id in E. exists s0.
  repeat (apply bind_eq in E; destruct E as [? [-> E]]; cbn [bind]). injection E as <- <- <-. reflexivity.
Qed.
Lemma csvd_l_default l r x1 w t x2 cl cr z s k : chain_ok (x1 ++ w :: t :: x2) l r ->
  csvd_l_step svd tsvd rank None (mkLt (x1 ++ w :: t :: x2) cl cr) (Z.of_nat (length x1) + 1) = Ok (z, (s, k)) ->
  exists s0, csvd_l_step svd tsvd rank (Some keep_all) (mkLt (x1 ++ w :: t :: x2) cl cr) (Z.of_nat (length x1) + 1) = Ok (z, (s0, k)).
Proof.
  intros HC E. pose proof HC as [Hne [B Pp]]. pose proof (bonds_two _ _ _ _ _ _ B) as [B1 [Hw [Ht [El B2]]]].
  unfold pos in Pp. pose proof Pp as P'. apply Forall_app in P'. destruct P' as [P1 P']. inversion P' as [|? ? Pw P'']; subst. inversion P'' as [|? ? Pt P2]; subst. clear P' P''.
  unfold csvd_l_step in *. cbn [lts] in *.
  assert (EG : pyget (x1 ++ w :: t :: x2) (Z.of_nat (length x1) + 1) = Ok t).
  { replace (Z.of_nat (length x1) + 1)%Z with (Z.of_nat (S (length x1))) by lia.
    replace (x1 ++ w :: t :: x2) with ((x1 ++ [w]) ++ t :: x2) by (rewrite <- app_assoc; reflexivity). apply pyget_at. rewrite app_length; cbn; lia. }
  rewrite EG in *. cbn [bind] in *.
  rewrite (shape0_lt t Ht) in *. cbn [bind] in *. rewrite (rmat_reshape t Ht Pt) in *. cbn [bind] in *.
  pose proof (rmat_is_mat t Ht Pt) as M.
  destruct (svd_site svd tsvd rank None (rmat t)) as [[[[u1 s1] v1] k1]|e] eqn:ES; [|discriminate].
  destruct (svd_site_default _ _ _ _ _ _ _ M ES) as [u0 [s0 [v0 [E0 [-> [-> ->]]]]]]. rewrite E0. cbn [bind] in *.
  rewrite take_cols_idem, take_rows_idem, firstn_firstn, Nat.min_id in E. exists s0.
  repeat (apply bind_eq in E; destruct E as [? [-> E]]; cbn [bind]). injection E as <- <- <-. reflexivity.
Qed.

Lemma loop_r_default l r : forall n x1 y rest cl cr z ys, length rest = n ->
  chain_ok (x1 ++ y :: rest) l r -> (Z.of_nat (length x1) <= cl)%Z ->
  csvd_loop (csvd_r_step svd tsvd rank None) (map (fun k => Z.of_nat (length x1 + k)) (seq 0 n)) (mkLt (x1 ++ y :: rest) cl cr) = Ok (z, ys) ->
  exists ys0, csvd_loop (csvd_r_step svd tsvd rank (Some keep_all)) (map (fun k => Z.of_nat (length x1 + k)) (seq 0 n)) (mkLt (x1 ++ y :: rest) cl cr) = Ok (z, ys0).
Proof.
  induction n as [|n IH]; intros x1 y rest cl cr z ys Ln HC Hcl E.
  { cbn in *. injection E as <- <-. eauto. }
  destruct rest as [|w x2]; [discriminate|]. rewrite seq_shift_Z in *. cbn [csvd_loop] in *.
  apply bind_eq in E. destruct E as [[z1 [s k]] [E1 E]]. apply bind_eq in E. destruct E as [[z2 ys2] [E2 E]]. cbn [fst snd] in *. injection E as <- <-.
  pose proof (outc_inv _ _ _ _ (csvd_r_step_spec svd tsvd Hsvd (truncated_svd_sound svd Hsvd) l r rank None x1 y w x2 cl cr HC Hrank Logic.I Hcl) E1) as H. cbn beta in H.
  destruct H as [u [w' [s' [k' [V' [EE [HC' _]]]]]]]. injection EE as -> _ _.
  destruct (csvd_r_default l r x1 y w x2 cl cr _ s k HC E1) as [s0 E0]. rewrite E0. cbn [bind fst snd].
  assert (EX : x1 ++ u :: w' :: x2 = (x1 ++ [u]) ++ w' :: x2) by (rewrite <- app_assoc; reflexivity).
  assert (LX : length (x1 ++ [u]) = S (length x1)) by (rewrite app_length; cbn; lia).
  rewrite EX in *. rewrite <- LX in E2. rewrite <- LX.
  destruct (IH (x1 ++ [u]) w' x2 (Z.of_nat (length x1) + 1)%Z _ _ _ ltac:(cbn in Ln; lia) HC' ltac:(rewrite LX; lia) E2) as [ys0 ->]. cbn [bind fst snd]. eauto.
Qed.
Lemma loop_l_default l r : forall n xs y x2 cl cr z ys, length xs = n ->
  chain_ok (xs ++ y :: x2) l r -> (cr <= Z.of_nat (length xs) + 1)%Z ->
  csvd_loop (csvd_l_step svd tsvd rank None) (map (fun k => Z.of_nat (n - k)) (seq 0 n)) (mkLt (xs ++ y :: x2) cl cr) = Ok (z, ys) ->
  exists ys0, csvd_loop (csvd_l_step svd tsvd rank (Some keep_all)) (map (fun k => Z.of_nat (n - k)) (seq 0 n)) (mkLt (xs ++ y :: x2) cl cr) = Ok (z, ys0).
Proof.
  induction n as [|n IH]; intros xs y x2 cl cr z ys Ln HC Hcr E.
  { cbn in *. injection E as <- <-. eauto. }
  destruct (exists_last (l := xs)) as [x1 [w ->]]; [intros ->; discriminate|]. rewrite app_length in Ln, Hcr. cbn in Ln, Hcr.
  assert (E0 : map (fun k => Z.of_nat (S n - k)) (seq 0 (S n)) = (Z.of_nat n + 1)%Z :: map (fun k => Z.of_nat (n - k)) (seq 0 n)) by exact (seq_down_Z 0 n).
  rewrite E0 in *. cbn [csvd_loop] in *.
  apply bind_eq in E. destruct E as [[z1 [s k]] [E1 E]]. apply bind_eq in E. destruct E as [[z2 ys2] [E2 E]]. cbn [fst snd] in *. injection E as <- <-.
  assert (EX : (x1 ++ [w]) ++ y :: x2 = x1 ++ w :: y :: x2) by (rewrite <- app_assoc; reflexivity). rewrite EX in *.
  assert (Ln1 : length x1 = n) by lia. rewrite <- Ln1 in E1.
  pose proof (outc_inv _ _ _ _ (csvd_l_step_spec svd tsvd Hsvd (truncated_svd_sound svd Hsvd) l r rank None x1 w y x2 cl cr HC Hrank Logic.I ltac:(lia)) E1) as H. cbn beta in H.
  destruct H as [w' [v [s' [k' [U' [EE [HC' _]]]]]]]. injection EE as -> _ _.
  destruct (csvd_l_default l r x1 w y x2 cl cr _ s k HC E1) as [s0 E3]. rewrite Ln1 in E3. rewrite E3. cbn [bind fst snd].
  destruct (IH x1 w' (v :: x2) _ (Z.of_nat (length x1) + 1)%Z _ _ Ln1 HC' ltac:(lia) E2) as [ys0 E4]. rewrite Ln1 in E4. rewrite E4. cbn [bind fst snd]. eauto.
Qed.

Lemma compress_r_default (x z : ltens K) ys ov : chain_ok (lts x) 1 1 -> (0 <= lcan x)%Z ->
  compress_svd_r svd tsvd x rank None = Ok (z, ys, ov) -> exists ys0, compress_svd_r svd tsvd x rank (Some keep_all) = Ok (z, ys0, ov).
Proof.
  intros HC Hc E. unfold compress_svd_r in *. destruct (Nat.ltb_spec 0 rank); [|lia]. cbn [passert] in *. apply bind_eq in E. destruct E as [[z2 ys2] [E2 E3]].
  destruct x as [[|t ts] cl cr]; [exfalso; apply (proj1 HC); reflexivity|]. unfold llen in *. cbn [lts length lcan] in *.
  rewrite pyrange_up in * by lia. replace (Z.to_nat (Z.of_nat (S (length ts)) - 1 - 0)) with (length ts) in * by lia.
  rewrite (map_ext (fun k => (0 + Z.of_nat k)%Z) (fun k => Z.of_nat (@length (nd K) [] + k))) in * by reflexivity.
  destruct (loop_r_default 1 1 (length ts) [] t ts cl cr z2 ys2 eq_refl HC ltac:(cbn; lia) E2) as [ys0 E0]. cbn [app] in E0. rewrite E0. cbn [bind fst snd] in *.
  apply bind_eq in E3. destruct E3 as [t3 [-> E3]]. cbn [bind]. injection E3 as <- _ <-. eauto.
Qed.
Lemma compress_l_default (x z : ltens K) ys ov : chain_ok (lts x) 1 1 -> (rcan x <= Z.of_nat (llen x))%Z ->
  compress_svd_l svd tsvd x rank None = Ok (z, ys, ov) -> exists ys0, compress_svd_l svd tsvd x rank (Some keep_all) = Ok (z, ys0, ov).
Proof.
  intros HC Hc E. unfold compress_svd_l in *. destruct (Nat.ltb_spec 0 rank); [|lia]. cbn [passert] in *. apply bind_eq in E. destruct E as [[z2 ys2] [E2 E3]].
  destruct x as [ts cl cr]. unfold llen in *. cbn [lts lcan rcan] in *.
  destruct (exists_last (l := ts)) as [xs [t ->]]; [apply (proj1 HC)|]. rewrite app_length in *. cbn [length] in *.
  rewrite pyrange_down in * by lia. replace (Z.to_nat (Z.of_nat (length xs + 1) - 1 - 0)) with (length xs) in * by lia.
  rewrite (map_ext_in (fun k => (Z.of_nat (length xs + 1) - 1 - Z.of_nat k)%Z) (fun k => Z.of_nat (length xs - k))) in *
    by (intros k Hk; apply in_seq in Hk; lia).
  destruct (loop_l_default 1 1 (length xs) xs t [] cl cr z2 ys2 eq_refl HC ltac:(lia) E2) as [ys0 E0]. rewrite E0. cbn [bind fst snd] in *.
  apply bind_eq in E3. destruct E3 as [t3 [-> E3]]. cbn [bind]. injection E3 as <- _ <-. eauto.
Qed.
End Default.

Section Default2.
Context {K : StarRing}.
Variable qr : nd K -> res (nd K * nd K).
Hypothesis Hqr : qr_sound qr.
Variable svd : nd K -> res (nd K * list K * nd K).
Hypothesis Hsvd : svd_sound svd.

Theorem compress_default (x z : ltens K) rank dir ov : mpa_pos x -> cform_wk x -> 2 <= llen x -> rank_pos rank ->
  compress_svd qr svd (truncated_svd svd) x rank None dir true = Ok (z, ov) ->
  compress_svd qr svd (truncated_svd svd) x rank (Some keep_all) dir true = Ok (z, ov).
Proof.
  intros Hx HF Hn Hrp. pose proof (pos_chain _ Hx) as HC. unfold compress_svd. destruct (Nat.eqb_spec (llen x) 1) as [E1|E1]; [lia|].
  destruct (max_rank_spec x 1 1 HC Hn) as [mk [Em [Mp [Mf Mi]]]].
  assert (HR : exists R, (match rank with Some r0 => Ok r0 | None => max_rank x end) = Ok R /\ 0 < R).
  { destruct rank as [k|]; [exists k|exists mk]; auto. }
  destruct HR as [R [-> Rp]]. unfold canonical_form. cbn [bind].
  assert (HR : (do x1 <- canonicalize qr x CANone (CAInt 1); do p <- compress_svd_r svd (truncated_svd svd) x1 R None; Ok (fst (fst p), snd p)) = Ok (z, ov) ->
    (do x1 <- canonicalize qr x CANone (CAInt 1); do p <- compress_svd_r svd (truncated_svd svd) x1 R (Some keep_all); Ok (fst (fst p), snd p)) = Ok (z, ov)).
  { intros E. apply bind_eq in E. destruct E as [y [Ey E]]. pose proof (outc_inv _ _ _ _ (canon_r1 qr Hqr 1 1 x HC HF Hn) Ey) as [S [W _]].
    rewrite Ey. cbn [bind]. apply bind_eq in E. destruct E as [[[z' ys] ov'] [E2 E]]. cbn [fst snd] in E. injection E as -> ->.
    destruct (compress_r_default svd Hsvd R Rp y z ys ov (proj1 S) ltac:(destruct W; lia) E2) as [ys0 ->]. reflexivity. }
  assert (HL : (do x1 <- canonicalize qr x (CAInt (Z.of_nat (llen x) - 1)) CANone; do p <- compress_svd_l svd (truncated_svd svd) x1 R None; Ok (fst (fst p), snd p)) = Ok (z, ov) ->
    (do x1 <- canonicalize qr x (CAInt (Z.of_nat (llen x) - 1)) CANone; do p <- compress_svd_l svd (truncated_svd svd) x1 R (Some keep_all); Ok (fst (fst p), snd p)) = Ok (z, ov)).
  { intros E. apply bind_eq in E. destruct E as [y [Ey E]]. pose proof (outc_inv _ _ _ _ (canon_ln qr Hqr 1 1 x HC HF Hn) Ey) as [S [W _]].
    rewrite Ey. cbn [bind]. apply bind_eq in E. destruct E as [[[z' ys] ov'] [E2 E]]. cbn [fst snd] in E. injection E as -> ->.
    pose proof (sim_len _ _ _ _ S) as Len.
    destruct (compress_l_default svd Hsvd R Rp y z ys ov (proj1 S) ltac:(destruct W; lia) E2) as [ys0 ->]. reflexivity. }
  destruct dir; [destruct (lcan x <? Z.of_nat (llen x) - rcan x)%Z|..]; auto.
Qed.
End Default2.
