(** Shapes that reshape refuses. *)
From Verif Require Export PfShape.

Lemma nonneg_split (sh : list Z) : existsb (fun z => (z <? -1)%Z) sh = false ->
  (exists q, sh = map Z.of_nat q) \/ exists q1 r, sh = map Z.of_nat q1 ++ (-1)%Z :: r /\ existsb (fun z => (z <? -1)%Z) r = false.
Proof.
  induction sh as [|z sh IH]; cbn [existsb]; intros H; [left; exists []; reflexivity|].
  apply orb_false_iff in H. destruct H as [H1 H2]. apply Z.ltb_ge in H1.
  destruct (Z.eq_dec z (-1)) as [->|Hz]; [right; exists [], sh; auto|].
  destruct (IH H2) as [(q & ->)|(q1 & r & -> & Hr)].
  - left. exists (Z.to_nat z :: q). cbn [map]. rewrite Z2Nat.id by lia. reflexivity.
  - right. exists (Z.to_nat z :: q1), r. cbn [map app]. rewrite Z2Nat.id by lia. auto.
Qed.

Lemma resolve_shape_inv total sh q : resolve_shape total sh = Some q -> reshape_to sh q /\ size q = total.
Proof.
  intros H. unfold resolve_shape in H. destruct (existsb (fun z => (z <? -1)%Z) sh) eqn:En; [discriminate|].
  destruct (nonneg_split sh En) as [(q0 & ->)|(q1 & r & -> & Hr)].
  - pose proof (known_nat q0 []) as Ek. rewrite app_nil_r in Ek. rewrite Ek in H.
    pose proof (no_unknown q0 []) as Eu. rewrite app_nil_r in Eu. rewrite Eu in H. cbn [filter length fold_right] in H.
    rewrite Z.mul_1_r in H. destruct (Z.eqb_spec (Z.of_nat (size q0)) (Z.of_nat total)) as [E|]; [|discriminate].
    rewrite to_nat_map in H. injection H as <-. split; [constructor|lia].
  - rewrite known_nat, no_unknown in H. cbn [filter fold_right] in H. change (-1 =? -1)%Z with true in H. cbn [length] in H.
    destruct (nonneg_split r Hr) as [(q2 & ->)|(q2 & r2 & -> & Hr2)].
    + pose proof (no_unknown q2 []) as Eu. rewrite app_nil_r in Eu. rewrite Eu in H.
      pose proof (known_nat q2 []) as Ek. rewrite app_nil_r in Ek. rewrite Ek in H. cbn [filter length fold_right] in H. rewrite Z.mul_1_r in H.
      destruct (Z.eqb_spec (Z.of_nat (size q1) * Z.of_nat (size q2)) 0) as [|E0]; [discriminate|].
      match type of H with (if ?b then _ else _) = _ => destruct b eqn:Em end; [|discriminate]. apply Z.eqb_eq in Em.
      rewrite map_app in H. cbn [map] in H. change (-1 =? -1)%Z with true in H. cbn iota in H. rewrite !to_nat_map' in H. injection H as <-.
      split; [constructor; nia|]. rewrite size_app, size_cons.
      pose proof (Z.div_mod (Z.of_nat total) (Z.of_nat (size q1) * Z.of_nat (size q2)) E0) as D. rewrite Em in D.
      set (k := (Z.of_nat total / (Z.of_nat (size q1) * Z.of_nat (size q2)))%Z) in *.
      assert (Hk : (0 <= k)%Z) by (apply Z.div_pos; nia). apply Nat2Z.inj. rewrite !Nat2Z.inj_mul, Z2Nat.id by exact Hk. nia.
    + rewrite no_unknown in H. cbn [filter] in H. change (-1 =? -1)%Z with true in H. cbn [length] in H. discriminate.
Qed.

Section Err.
Context {K : StarRing}.

Lemma reshape_to_pos sh q : reshape_to sh q -> Forall (fun z => (-1 <= z)%Z) sh.
Proof.
  intros [q'|q1 d q2 _ _]; [|apply Forall_app; split; [|constructor; [lia|]]]; apply Forall_forall; intros z Hz; apply in_map_iff in Hz; destruct Hz as (k & <- & _); lia.
Qed.

Lemma mid_nat l r (sh : list Z) q : reshape_to (Z.of_nat l :: sh ++ [Z.of_nat r]) q -> 0 < l -> 0 < r ->
  exists q', q = l :: q' ++ [r] /\ reshape_to sh q'.
Proof.
  intros H Hl Hr. remember (Z.of_nat l :: sh ++ [Z.of_nat r]) as s eqn:Es. destruct H as [q|q1 d q2 H1 H2].
  - destruct q as [|a q]; [discriminate|]. cbn [map] in Es. injection Es as Ea Eq. apply Nat2Z.inj in Ea. subst a.
    destruct (exists_last (l:=q)) as (q' & b & ->). { intros ->. destruct sh; discriminate. }
    rewrite map_app in Eq. cbn [map] in Eq. apply app_inj_tail in Eq. destruct Eq as [<- Eb]. apply Nat2Z.inj in Eb. subst b.
    exists q'. split; [reflexivity|constructor].
  - destruct q1 as [|a q1]; cbn [map app] in Es; [injection Es as Ea _; lia|]. injection Es as Ea Eq. apply Nat2Z.inj in Ea. subst a.
    destruct (exists_last (l:=(-1)%Z :: map Z.of_nat q2)) as (q' & b & E'); [discriminate|]. 
    destruct q2 as [|c q2].
    + cbn [map] in Eq. apply app_inj_tail in Eq. destruct Eq as [_ Eb]. lia.
    + destruct (exists_last (l:=c :: q2)) as (q3 & b' & E3); [discriminate|]. rewrite E3 in *. rewrite map_app in Eq. cbn [map] in Eq.
      rewrite app_comm_cons, app_assoc in Eq. apply app_inj_tail in Eq. destruct Eq as [<- Eb]. apply Nat2Z.inj in Eb. subst b'.
      exists (q1 ++ d :: q3). split; [cbn [app]; rewrite <- app_assoc; reflexivity|]. rewrite size_cons in H1. rewrite size_app in H2. constructor; nia.
Qed.

Lemma local_reshape_dec (t : nd K) sh : lt_ok t -> 0 < ldim t -> 0 < rdim t ->
  (exists q, site_reshape_ok t sh q /\ local_reshape t sh = Ok (rphys q t)) \/ ((forall q, ~ site_reshape_ok t sh q) /\ local_reshape t sh = Err ValueError).
Proof.
  intros Ht Hl Hr. destruct (resolve_shape (size (shp t)) (Z.of_nat (ldim t) :: sh ++ [Z.of_nat (rdim t)])) as [q|] eqn:E.
  - left. destruct (resolve_shape_inv _ _ _ E) as [R S]. destruct (mid_nat _ _ _ _ R Hl Hr) as (q' & -> & R').
    rewrite (lt_ok_shp t Ht), !size_cons, !size_app, !size_single in S.
    assert (Hq : site_reshape_ok t sh q') by (split; [apply Nat.mul_cancel_l in S; [|lia]; apply Nat.mul_cancel_r in S; [exact S|lia]|]; split; [exact R'|right; auto]).
    exists q'. split; [exact Hq|]. apply site_reshape_eq; assumption.
  - right. split.
    + intros q Hq. pose proof (site_reshape_eq t sh q Ht Hq) as E'. unfold local_reshape, reshape_py in E'. rewrite E in E'. discriminate.
    + unfold local_reshape, reshape_py. rewrite E. reflexivity.
Qed.

(** Sites and requested shapes are paired; the surplus of the longer list is dropped. *)
Lemma reshape_sites_err (ts : list (nd K)) shs : Forall lt_ok ts -> Forall (fun t => 0 < ldim t /\ 0 < rdim t) ts ->
  (exists t sh, In (t, sh) (combine ts shs) /\ forall q, ~ site_reshape_ok t sh q) ->
  mapM (fun p => local_reshape (fst p) (snd p)) (combine ts shs) = Err ValueError.
Proof.
  revert shs. induction ts as [|t ts IH]; intros [|sh shs] Ho Hp (t0 & sh0 & Hi & Hn); cbn [combine] in Hi; try contradiction.
  inversion Ho; subst. inversion Hp as [|? ? [Hl Hr] Hp']; subst. cbn [combine mapM fst snd].
  destruct (local_reshape_dec t sh) as [(q & Hq & ->)|[_ ->]]; try assumption; [|reflexivity]. cbn [bind].
  destruct Hi as [Hi|Hi]; [injection Hi as -> ->; destruct (Hn q Hq)|]. rewrite IH; [reflexivity|assumption|assumption|]. exists t0, sh0. auto.
Qed.

Theorem mreshape_err (x : ltens K) arg : mpa_ok x -> bonds_pos x -> reshape_nonempty arg ->
  (exists t sh, In (t, sh) (combine (lts x) (reshape_shapes x arg)) /\ forall q, ~ site_reshape_ok t sh q) -> mreshape x arg = Err ValueError.
Proof.
  intros [_ Hb] Hp Hn He. unfold mreshape. pose proof (reshape_sites_err (lts x) (reshape_shapes x arg) (bonds_ok _ _ _ Hb) Hp He) as E.
  destruct arg as [|[|s sh]|[|s shs]]; cbn [reshape_nonempty reshape_shapes] in *; try congruence; cbn [bind]; rewrite E; reflexivity.
Qed.

Theorem mreshape_empty (x : ltens K) : mreshape x (ROne []) = Err IndexError /\ mreshape x (RList []) = Err IndexError.
Proof. split; reflexivity. Qed.

(** With a shape for each site there is no third outcome. *)
Theorem mreshape_total (x : ltens K) arg : mpa_ok x -> bonds_pos x -> length (reshape_shapes x arg) = llen x ->
  (exists qs, Forall3 site_reshape_ok (lts x) (reshape_shapes x arg) qs) \/
  (exists t sh, In (t, sh) (combine (lts x) (reshape_shapes x arg)) /\ forall q, ~ site_reshape_ok t sh q).
Proof.
  intros [_ Hb] Hp Hl. unfold llen in Hl. unfold bonds_pos in Hp. pose proof (bonds_ok _ _ _ Hb) as Ho. generalize dependent (reshape_shapes x arg). clear Hb. induction (lts x) as [|t ts IH]; intros [|sh shs] E; try discriminate.
  - left. exists []. constructor.
  - inversion Ho; subst. inversion Hp as [|? ? [Hl Hr] Hp']; subst. cbn in E. destruct (IH Hp' H2 shs ltac:(lia)) as [(qs & Hq)|(t0 & sh0 & Hi & Hn)].
    + destruct (local_reshape_dec t sh) as [(q & Hq1 & _)|[Hn _]]; try assumption; [left; exists (q :: qs); constructor; assumption|].
      right. exists t, sh. split; [left; reflexivity|exact Hn].
    + right. exists t0, sh0. split; [right; exact Hi|exact Hn].
Qed.

(** Surplus shapes are ignored. *)
Theorem mreshape_surplus (x : ltens K) shs more : shs <> [] -> length shs = llen x -> mreshape x (RList (shs ++ more)) = mreshape x (RList shs).
Proof.
  intros Hn Hl. unfold mreshape. assert (E : combine (lts x) (shs ++ more) = combine (lts x) shs).
  { unfold llen in Hl. clear Hn. revert shs Hl. induction (lts x) as [|t ts IH]; intros [|s shs] H; try discriminate; [reflexivity|]. cbn. f_equal. apply IH. cbn in H. lia. }
  destruct shs as [|s shs]; [congruence|]. cbn [app bind] in *. rewrite E. reflexivity.
Qed.

(** A list of shapes that is too short for the chain *)
Theorem mreshape_short (x : ltens K) shs qs : mpa_ok x -> shs <> [] -> (length shs < llen x) ->
  Forall3 site_reshape_ok (firstn (length shs) (lts x)) shs qs -> (Z.of_nat (length shs) < rcan x)%Z ->
  mreshape x (RList shs) = Err AssertionError.
Proof.
  intros [_ Hb] Hn Hl HF Hr. pose proof (bonds_ok _ _ _ Hb) as Ho. unfold mreshape. destruct shs as [|s shs]; [congruence|]. cbn [bind].
  destruct (reshape_sites _ _ _ (proj1 (proj1 (Forall_app _ _ _) (eq_ind_r (Forall lt_ok) Ho (firstn_skipn _ (lts x))))) HF) as [E [S _]].
  assert (Ec : forall (ts : list (nd K)) (l : list (list Z)), combine ts l = combine (firstn (length l) ts) l).
  { clear. induction ts as [|t ts IH]; intros [|l ls]; cbn; try reflexivity. f_equal. apply IH. }
  rewrite Ec, E. cbn [bind]. unfold lt_init. apply Forall2_len in S. rewrite firstn_length_le in S by (unfold llen in Hl; lia). rewrite <- S. cbn [fst snd].
  destruct (Z.eqb_spec (rcan x) 0); [lia|]. destruct (Z.ltb_spec 0 (Z.of_nat (length (s :: shs)))); [|cbn in *; lia]. cbn [passert praise_unless].
  unfold passert, praise_unless. destruct (Z.leb_spec (rcan x) (Z.of_nat (length (s :: shs)))); [lia|]. rewrite andb_false_r. destruct (_ && _); reflexivity.
Qed.
End Err.
