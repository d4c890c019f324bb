(** [_local_dot] and [dot]. *)
From Verif Require Export PfAdd.

(** ** rollaxis *)
Lemma gather_insert_at n x l y : gather (insert_at n x l) y = insert_at n (nth x y 0) (gather l y).
Proof. unfold insert_at, gather. rewrite map_app. cbn [map]. rewrite firstn_map, skipn_map. reflexivity. Qed.

Lemma gather_remove_at n l y : gather (remove_at n l) y = remove_at n (gather l y).
Proof. unfold remove_at, gather. rewrite map_app, firstn_map, skipn_map. reflexivity. Qed.

Lemma remove_at_app (pre : list nat) v post : remove_at (length pre) (pre ++ v :: post) = pre ++ post.
Proof.
  unfold remove_at. rewrite firstn_app, firstn_all, Nat.sub_diag. cbn [firstn]. rewrite app_nil_r. f_equal.
  rewrite skipn_app, skipn_all2 by lia. replace (S (length pre) - length pre) with 1 by lia. reflexivity.
Qed.

Lemma insert_at_app (pre : list nat) v post : insert_at (length pre) v (pre ++ post) = pre ++ v :: post.
Proof.
  unfold insert_at. rewrite firstn_app, firstn_all, Nat.sub_diag. cbn [firstn]. rewrite app_nil_r. f_equal.
  rewrite skipn_app, skipn_all2 by lia. rewrite Nat.sub_diag. reflexivity.
Qed.

Lemma remove_at_app' n (pre : list nat) v post : length pre = n -> remove_at n (pre ++ v :: post) = pre ++ post.
Proof. intros <-. apply remove_at_app. Qed.
Lemma insert_at_app' n (pre : list nat) v post : length pre = n -> insert_at n v (pre ++ post) = pre ++ v :: post.
Proof. intros <-. apply insert_at_app. Qed.

Lemma nth_mid' n (pre : list nat) v post d : length pre = n -> nth n (pre ++ v :: post) d = v.
Proof. intros <-. apply nth_middle. Qed.

Lemma insert_remove_perm k a (l : list nat) : a < length l -> Permutation (insert_at k (nth a l 0) (remove_at a l)) l.
Proof.
  intros H. unfold insert_at. rewrite <- Permutation_middle. rewrite firstn_skipn.
  unfold remove_at. rewrite Permutation_middle. rewrite <- split_nth by exact H. reflexivity.
Qed.

Definition roll_start (axis start : nat) : nat := if Nat.ltb axis start then start - 1 else start.

Lemma gather_rollaxis n axis start l :
  axis < n -> length l = n ->
  gather (rollaxis_order n axis start) l = insert_at (roll_start axis start) (nth axis l 0) (remove_at axis l).
Proof.
  intros Ha Hl. unfold rollaxis_order. fold (roll_start axis start).
  destruct (Nat.eqb_spec axis (roll_start axis start)) as [E|E].
  - rewrite <- E. rewrite gather_seq0' by exact Hl. symmetry.
    assert (exists pre v post, l = pre ++ v :: post /\ length pre = axis) as [pre [v [post [-> Hp]]]].
    { exists (firstn axis l), (nth axis l 0), (skipn (S axis) l).
      split; [apply split_nth; lia|rewrite firstn_length; lia]. }
    rewrite nth_mid' by exact Hp. rewrite remove_at_app' by exact Hp. apply insert_at_app'; exact Hp.
  - rewrite gather_insert_at, gather_remove_at, gather_seq0' by exact Hl. reflexivity.
Qed.

Lemma rollaxis_is_perm n axis start : axis < n -> is_perm (rollaxis_order n axis start) /\ length (rollaxis_order n axis start) = n.
Proof.
  intros Ha.
  assert (P : Permutation (rollaxis_order n axis start) (seq 0 n)).
  { rewrite <- (gather_seq0' n (rollaxis_order n axis start)) at 1.
    - rewrite <- (gather_seq0' n (seq 0 n)) at 2 by apply seq_length.
      unfold rollaxis_order. fold (roll_start axis start). destruct (axis =? roll_start axis start); [reflexivity|].
      rewrite !gather_seq0' by (rewrite ?seq_length; auto;
        unfold insert_at, remove_at; rewrite !app_length; cbn [length]; rewrite !firstn_length, !skipn_length, !app_length, !firstn_length, !skipn_length, !seq_length; lia).
      pose proof (insert_remove_perm (roll_start axis start) axis (seq 0 n) ltac:(rewrite seq_length; exact Ha)) as H.
      rewrite seq_nth in H by exact Ha. exact H.
    - unfold rollaxis_order. fold (roll_start axis start). destruct (axis =? roll_start axis start); [apply seq_length|].
      unfold insert_at, remove_at; rewrite !app_length; cbn [length]; rewrite !firstn_length, !skipn_length, !app_length, !firstn_length, !skipn_length, !seq_length; lia. }
  assert (L : length (rollaxis_order n axis start) = n) by (apply Permutation_length in P; rewrite seq_length in P; exact P).
  split; [|exact L]. unfold is_perm. rewrite L. exact P.
Qed.

Section Dot.
Context {K : StarRing}.
Add Ring Kr : (k_ring K).

Lemma shp_rollaxis (a : nd K) axis start : axis < ndim a ->
  shp (rollaxis a axis start) = insert_at (roll_start axis start) (nth axis (shp a) 0) (remove_at axis (shp a)).
Proof. intros H. unfold rollaxis. rewrite shp_transpose. apply gather_rollaxis; [exact H|reflexivity]. Qed.

Lemma get_rollaxis (a : nd K) axis start j : axis < ndim a -> inr j (shp a) ->
  get (rollaxis a axis start) (insert_at (roll_start axis start) (nth axis j 0) (remove_at axis j)) = get a j.
Proof.
  intros H Hj. unfold rollaxis. destruct (rollaxis_is_perm (ndim a) axis start H) as [P L].
  rewrite <- (gather_rollaxis (ndim a) axis start j H (inr_length _ _ Hj)).
  apply get_transpose_gather; assumption.
Qed.

(** ** Physical legs *)
(** Python index of a physical leg of a site with [n] physical legs. *)
Definition legs_at (n : nat) (zs : list Z) (al : list nat) : Prop :=
  Forall2 (fun z k => pyidx n z = Some k) zs al.

Lemma pyidx_lt n z k : pyidx n z = Some k -> k < n.
Proof.
  unfold pyidx. destruct (Z.leb_spec 0 z).
  - destruct (Z.ltb_spec z (Z.of_nat n)); [|discriminate]. intros E; injection E as <-. lia.
  - destruct (Z.leb_spec 0 (z + Z.of_nat n)); [|discriminate]. intros E; injection E as <-. lia.
Qed.

Lemma true_leg_pyidx n z k : pyidx n z = Some k -> norm_axis (S (S n)) (true_leg z) = Some (S k).
Proof.
  unfold norm_axis, pyidx, true_leg. destruct (Z.leb_spec 0 z).
  - destruct (Z.ltb_spec z (Z.of_nat n)); [|discriminate]. intros E; injection E as <-.
    destruct (Z.leb_spec 0 (z + 1)); [|lia]. destruct (Z.ltb_spec (z + 1) (Z.of_nat (S (S n)))); [|lia].
    f_equal. lia.
  - destruct (Z.leb_spec 0 (z + Z.of_nat n)); [|discriminate]. intros E; injection E as <-.
    destruct (Z.leb_spec 0 (z - 1)); [lia|]. destruct (Z.leb_spec 0 (z - 1 + Z.of_nat (S (S n)))); [|lia].
    f_equal. lia.
Qed.

Lemma legs_at_lt n zs al : legs_at n zs al -> forall k, In k al -> k < n.
Proof.
  intros H. induction H as [|z k zs al Hz H IH]; intros j Hj; [destruct Hj|].
  destruct Hj as [<-|Hj]; [eapply pyidx_lt; exact Hz|apply IH; exact Hj].
Qed.

Lemma mapM_legs n zs al e : legs_at n zs al ->
  mapM (fun z => match norm_axis (S (S n)) z with Some k => Ok k | None => Err e end) (map true_leg zs) = Ok (map S al).
Proof.
  intros H. induction H as [|z k zs al Hz H IH]; [reflexivity|]. cbn [map mapM].
  rewrite (true_leg_pyidx _ _ _ Hz). cbn [bind]. rewrite IH. reflexivity.
Qed.

Lemma nodupb_iff l : nodupb l = true <-> NoDup l.
Proof.
  induction l as [|x l IH]; cbn [nodupb]; [split; [constructor|reflexivity]|].
  rewrite andb_true_iff, negb_true_iff, memb_false_iff, IH. split.
  - intros [H1 H2]; constructor; assumption.
  - intros H; inversion H; auto.
Qed.

Lemma NoDup_map_S l : NoDup l -> NoDup (map S l).
Proof. intros H. apply FinFun.Injective_map_NoDup; [|exact H]. intros x y E. lia. Qed.

Lemma memb_map_S k l : memb (S k) (map S l) = memb k l.
Proof. unfold memb. induction l as [|x l IH]; [reflexivity|]. cbn [map existsb]. rewrite IH. reflexivity. Qed.

Lemma freeaxes_phys n al : (forall k, In k al -> k < n) ->
  freeaxes (S (S n)) (map S al) = 0 :: map S (freeaxes n al) ++ [S n].
Proof.
  intros H. unfold freeaxes.
  assert (E0 : memb 0 (map S al) = false).
  { apply memb_false_iff. rewrite in_map_iff. intros [x [E _]]. discriminate. }
  assert (En : memb (S n) (map S al) = false).
  { apply memb_false_iff. rewrite in_map_iff. intros [x [E Hx]]. injection E as ->. specialize (H _ Hx). lia. }
  replace (seq 0 (S (S n))) with (0 :: map S (seq 0 n) ++ [S n]).
  2:{ rewrite seq_shift. cbn [seq]. f_equal. symmetry. apply (seq_S n 1). }
  cbn [filter]. rewrite E0. cbn [negb]. f_equal. rewrite filter_app. cbn [filter]. rewrite En. cbn [negb]. f_equal.
  induction (seq 0 n) as [|k ks IH]; [reflexivity|]. cbn [map filter]. rewrite memb_map_S, IH.
  destruct (memb k al); reflexivity.
Qed.

Lemma gather_map_S al a p : gather (map S al) (a :: p) = gather al p.
Proof. unfold gather. rewrite map_map. reflexivity. Qed.

Lemma gather_prefix al p q : (forall k, In k al -> k < length p) -> gather al (p ++ q) = gather al p.
Proof. intros H. unfold gather. apply map_ext_in. intros k Hk. apply app_nth1. apply H; exact Hk. Qed.

Lemma gather_free_phys n al a p b : length p = n -> (forall k, In k al -> k < n) ->
  gather (freeaxes (S (S n)) (map S al)) (a :: p ++ [b]) = a :: gather (freeaxes n al) p ++ [b].
Proof.
  intros Hl H. rewrite freeaxes_phys by exact H.
  change (gather (0 :: map S (freeaxes n al) ++ [S n]) (a :: p ++ [b]))
    with (a :: gather (map S (freeaxes n al) ++ [S n]) (a :: p ++ [b])). f_equal.
  rewrite gather_app, gather_map_S. rewrite gather_prefix.
  - f_equal. cbn [gather map nth]. rewrite app_nth2 by lia. rewrite Hl, Nat.sub_diag. reflexivity.
  - intros k Hk. apply freeaxes_in in Hk. lia.
Qed.

(** The index of a site assembled from the contracted part [c] (legs [al]) and the
    remaining part [i]. *)
Definition fuse (n : nat) (al i c : list nat) : list nat := scatter (freeaxes n al ++ al) (i ++ c).

Lemma app_inj_len (A : Type) (a b c d : list A) : a ++ b = c ++ d -> length a = length c -> a = c /\ b = d.
Proof.
  revert c; induction a as [|x a IH]; intros [|y c] E Hl; try discriminate; [auto|].
  injection E as -> E. destruct (IH c E) as [-> ->]; [injection Hl as Hl; exact Hl|auto].
Qed.

Lemma freeaxes_total n al : NoDup al -> (forall k, In k al -> k < n) -> length (freeaxes n al) + length al = n.
Proof.
  intros Hd Hin. pose proof (freeaxes_perm n al Hd Hin) as H. apply Permutation_length in H.
  rewrite app_length, seq_length in H. exact H.
Qed.

Lemma fuse_spec n al i c :
  NoDup al -> (forall k, In k al -> k < n) -> length i = length (freeaxes n al) -> length c = length al ->
  length (fuse n al i c) = n /\ gather (freeaxes n al) (fuse n al i c) = i /\ gather al (fuse n al i c) = c.
Proof.
  intros Hd Hin Hi Hc. unfold fuse.
  pose proof (freeaxes_is_perm n al Hd Hin) as P.
  assert (G : gather (freeaxes n al ++ al) (scatter (freeaxes n al ++ al) (i ++ c)) = i ++ c).
  { apply gather_scatter; [exact P|]. rewrite !app_length. lia. }
  rewrite gather_app in G. apply app_inj_len in G; [|rewrite gather_length; lia].
  destruct G as [G1 G2]. split; [|split; assumption]. rewrite scatter_length, app_length.
  apply freeaxes_total; assumption.
Qed.

Lemma fuse_unique n al I : NoDup al -> (forall k, In k al -> k < n) -> length I = n ->
  fuse n al (gather (freeaxes n al) I) (gather al I) = I.
Proof.
  intros Hd Hin HI. unfold fuse. rewrite <- gather_app. apply scatter_gather; [apply freeaxes_is_perm; assumption|].
  rewrite app_length, freeaxes_total by assumption. exact HI.
Qed.

Lemma fuse_inr n al i c p :
  NoDup al -> (forall k, In k al -> k < n) -> length p = n ->
  inr i (gather (freeaxes n al) p) -> inr c (gather al p) -> inr (fuse n al i c) p.
Proof.
  intros Hd Hin Hp Hi Hc. unfold fuse. apply scatter_inr.
  - apply freeaxes_is_perm; assumption.
  - rewrite app_length, freeaxes_total by assumption. exact Hp.
  - rewrite gather_app. apply inr_app; assumption.
Qed.

Lemma scatter_left n al a b i c :
  NoDup al -> (forall k, In k al -> k < n) -> length i = length (freeaxes n al) -> length c = length al ->
  scatter (freeaxes (S (S n)) (map S al) ++ map S al) ((a :: i ++ [b]) ++ c) = a :: fuse n al i c ++ [b].
Proof.
  intros Hd Hin Hi Hc. destruct (fuse_spec n al i c Hd Hin Hi Hc) as [F1 [F2 F3]].
  assert (Hin' : forall k, In k (map S al) -> k < S (S n)).
  { intros k Hk. apply in_map_iff in Hk. destruct Hk as [x [<- Hx]]. specialize (Hin _ Hx). lia. }
  apply scatter_unique.
  - apply freeaxes_is_perm; [apply NoDup_map_S; exact Hd|exact Hin'].
  - rewrite app_length, freeaxes_total by (try apply NoDup_map_S; assumption).
    cbn [length]. rewrite app_length. cbn [length]. lia.
  - rewrite gather_app, gather_free_phys by assumption. rewrite F2. f_equal.
    rewrite gather_map_S, gather_prefix by (rewrite F1; exact Hin). exact F3.
Qed.

Lemma scatter_right n al a b i c :
  NoDup al -> (forall k, In k al -> k < n) -> length i = length (freeaxes n al) -> length c = length al ->
  scatter (map S al ++ freeaxes (S (S n)) (map S al)) (c ++ (a :: i ++ [b])) = a :: fuse n al i c ++ [b].
Proof.
  intros Hd Hin Hi Hc. destruct (fuse_spec n al i c Hd Hin Hi Hc) as [F1 [F2 F3]].
  assert (Hin' : forall k, In k (map S al) -> k < S (S n)).
  { intros k Hk. apply in_map_iff in Hk. destruct Hk as [x [<- Hx]]. specialize (Hin _ Hx). lia. }
  apply scatter_unique.
  - apply freeaxes_is_perm'; [apply NoDup_map_S; exact Hd|exact Hin'].
  - rewrite app_length, Nat.add_comm, freeaxes_total by (try apply NoDup_map_S; assumption).
    cbn [length]. rewrite app_length. cbn [length]. lia.
  - rewrite gather_app, gather_free_phys by assumption. rewrite F2. f_equal.
    rewrite gather_map_S, gather_prefix by (rewrite F1; exact Hin). exact F3.
Qed.

(** The two rollaxis calls of [_local_dot] on a shape or an index. *)
Lemma roll_dot1 (l l' r r' : nat) x y :
  let m := S (S (length x)) in
  let z := (l :: x ++ [r]) ++ (l' :: y ++ [r']) in
  insert_at (roll_start m 1) (nth m z 0) (remove_at m z) = l :: l' :: x ++ r :: y ++ [r'].
Proof.
  intros m z. unfold roll_start. replace (m <? 1) with false by (symmetry; apply Nat.ltb_ge; unfold m; lia).
  assert (L : length (l :: x ++ [r]) = m) by (cbn; rewrite app_length; cbn; unfold m; lia).
  unfold z. rewrite nth_mid' by exact L. rewrite remove_at_app' by exact L. unfold insert_at. cbn.
  rewrite <- app_assoc. reflexivity.
Qed.

Lemma roll_dot2 (l l' r r' : nat) x y :
  let m := S (S (length x)) in
  let s := S (S (S (length x + length y))) in
  let z := l :: l' :: x ++ r :: y ++ [r'] in
  insert_at (roll_start m s) (nth m z 0) (remove_at m z) = l :: l' :: x ++ y ++ [r; r'].
Proof.
  intros m s z. unfold roll_start. replace (m <? s) with true by (symmetry; apply Nat.ltb_lt; unfold m, s; lia).
  assert (L : length (l :: l' :: x) = m) by reflexivity.
  unfold z. change (l :: l' :: x ++ r :: y ++ [r']) with ((l :: l' :: x) ++ r :: y ++ [r']).
  rewrite nth_mid' by exact L. rewrite remove_at_app' by exact L.
  rewrite (app_assoc (l :: l' :: x) y [r']). rewrite insert_at_app'.
  - cbn. rewrite <- app_assoc. reflexivity.
  - rewrite app_length. cbn. unfold s. lia.
Qed.

Definition user_axes (ax : dotaxes) : list Z * list Z :=
  match ax with AInt a b => ([a], [b]) | ASeq la lb => (la, lb) end.

Lemma true_user ax : true_axes ax = (map true_leg (fst (user_axes ax)), map true_leg (snd (user_axes ax))).
Proof. destruct ax; reflexivity. Qed.

Lemma legs_at_length n zs al : legs_at n zs al -> length zs = length al.
Proof. apply Forall2_len. Qed.

Ltac solve_inr := unfold inr in *; repeat first [assumption | constructor | apply Forall2_app]; nia.

Lemma ravel_pair a a' l l' : ravel [l; l'] [a; a'] = a * l' + a'.
Proof. cbn. rewrite size_single, size_nil. lia. Qed.

Lemma size_pair a b : size [a; b] = a * b.
Proof. rewrite size_cons, size_single. reflexivity. Qed.

Theorem local_dot_spec (tl tr : nd K) ax al ar :
  let pl := pdims tl in let pr := pdims tr in
  let nl := length pl in let nr := length pr in
  lt_ok tl -> lt_ok tr ->
  legs_at nl (fst (user_axes ax)) al -> legs_at nr (snd (user_axes ax)) ar -> NoDup al -> NoDup ar ->
  gather al pl = gather ar pr ->
  exists u, local_dot tl tr (true_axes ax) = Ok u /\ lt_ok u /\
    ldim u = ldim tl * ldim tr /\ rdim u = rdim tl * rdim tr /\
    pdims u = gather (freeaxes nl al) pl ++ gather (freeaxes nr ar) pr /\
    forall a a' b b' i j, a < ldim tl -> a' < ldim tr -> b < rdim tl -> b' < rdim tr ->
      inr i (gather (freeaxes nl al) pl) -> inr j (gather (freeaxes nr ar) pr) ->
      ent u (a * ldim tr + a') (i ++ j) (b * rdim tr + b') =
      msum (gather al pl) (fun c => ent tl a (fuse nl al i c) b * ent tr a' (fuse nr ar j c) b')%K.
Proof.
  intros pl pr nl nr Hl Hr Ll Lr Dl Dr Eg.
  pose proof (legs_at_lt _ _ _ Ll) as Bl. pose proof (legs_at_lt _ _ _ Lr) as Br.
  pose proof (lt_ok_shp _ Hl) as Sl. pose proof (lt_ok_shp _ Hr) as Sr. fold pl in Sl. fold pr in Sr.
  pose proof (ndim_lt _ Hl) as Nl. pose proof (ndim_lt _ Hr) as Nr. fold pl nl in Nl. fold pr nr in Nr.
  set (fl := freeaxes nl al) in *. set (fr := freeaxes nr ar) in *.
  assert (Lfl : length fl + length al = nl) by (apply freeaxes_total; assumption).
  assert (Lfr : length fr + length ar = nr) by (apply freeaxes_total; assumption).
  assert (Elen : length al = length ar) by (apply (f_equal (@length _)) in Eg; rewrite !gather_length in Eg; exact Eg).
  unfold local_dot. rewrite true_user. cbn [fst snd]. rewrite !map_length.
  rewrite (legs_at_length _ _ _ Ll), (legs_at_length _ _ _ Lr), Elen, Nat.eqb_refl. cbn [passert].
  rewrite Nl, Nr, (mapM_legs _ _ _ _ Ll), (mapM_legs _ _ _ _ Lr). cbn [bind].
  rewrite Sl, Sr, !gather_map_S, !gather_prefix by assumption. rewrite Eg, list_eqb_refl.
  replace (nodupb (map S al)) with true by (symmetry; apply nodupb_iff; apply NoDup_map_S; exact Dl).
  replace (nodupb (map S ar)) with true by (symmetry; apply nodupb_iff; apply NoDup_map_S; exact Dr).
  cbn [andb praise_unless].
  set (r0 := tensordot tl tr (map S al) (map S ar)).
  set (gl := gather fl pl). set (gr := gather fr pr).
  assert (Lgl : length gl = length fl) by apply gather_length.
  assert (Lgr : length gr = length fr) by apply gather_length.
  assert (S0 : shp r0 = (ldim tl :: gl ++ [rdim tl]) ++ (ldim tr :: gr ++ [rdim tr])).
  { unfold r0. rewrite shp_tensordot, Nl, Nr, Sl, Sr.
    rewrite !gather_free_phys by (try assumption; reflexivity). reflexivity. }
  assert (Em : S (S nl) - length ar = S (S (length gl))) by lia.
  assert (Es : S (S nl) + S (S nr) - length ar - length ar - 1 = S (S (S (length gl + length gr)))) by lia.
  rewrite Em, Es.
  set (r1 := rollaxis r0 (S (S (length gl))) 1).
  assert (S1 : shp r1 = ldim tl :: ldim tr :: gl ++ rdim tl :: gr ++ [rdim tr]).
  { unfold r1. rewrite shp_rollaxis, S0; [apply roll_dot1|]. unfold ndim. rewrite S0. cbn. rewrite !app_length. cbn. rewrite app_length; cbn. lia. }
  set (r2 := rollaxis r1 (S (S (length gl))) (S (S (S (length gl + length gr))))).
  assert (B1 : S (S (length gl)) < ndim r1).
  { unfold ndim. rewrite S1. cbn. rewrite !app_length. cbn. rewrite app_length; cbn. lia. }
  assert (B0 : S (S (length gl)) < ndim r0).
  { unfold ndim. rewrite S0. cbn. rewrite !app_length. cbn. rewrite app_length; cbn. lia. }
  assert (S2 : shp r2 = ldim tl :: ldim tr :: gl ++ gr ++ [rdim tl; rdim tr]).
  { unfold r2. rewrite shp_rollaxis, S1 by exact B1. apply roll_dot2. }
  assert (Esh : removelast (removelast (List.tl (List.tl (shp r2)))) = gl ++ gr).
  { rewrite S2. cbn [List.tl]. rewrite app_assoc. change [rdim tl; rdim tr] with ([rdim tl] ++ [rdim tr]).
    rewrite app_assoc, !removelast_last. reflexivity. }
  rewrite Esh.
  set (sh := ldim tl * ldim tr :: (gl ++ gr) ++ [rdim tl * rdim tr]).
  assert (Esz : size sh = size (shp r2)).
  { unfold sh. rewrite S2, !size_cons, !size_app, size_pair, size_single. nia. }
  unfold reshape_ok. rewrite Esz, Nat.eqb_refl. cbn [praise_unless].
  exists (reshape r2 sh). split; [reflexivity|].
  assert (Eshp : shp (reshape r2 sh) = sh) by reflexivity.
  split; [eapply lt_ok_mk; [apply wf_reshape; [apply wf_transpose|exact Esz]|exact Eshp]|].
  split; [eapply ldim_mk; exact Eshp|]. split; [eapply rdim_mk; exact Eshp|].
  split; [eapply pdims_mk; exact Eshp|].
  intros a a' b b' i j Ha Ha' Hb Hb' Hi Hj. unfold ent at 1.
  set (J0 := (a :: i ++ [b]) ++ (a' :: j ++ [b'])).
  assert (I0 : inr J0 (shp r0)).
  { rewrite S0. unfold J0. apply inr_app; (apply inr_cons; [assumption|]; apply inr_app; [assumption|apply inr_single; assumption]). }
  assert (Li : length i = length gl) by (apply inr_length in Hi; exact Hi).
  assert (Lj : length j = length gr) by (apply inr_length in Hj; exact Hj).
  rewrite (get_reshape' r2 sh _ (a :: a' :: i ++ j ++ [b; b'])).
  - transitivity (get r1 (a :: a' :: i ++ b :: j ++ [b'])).
    { rewrite <- (roll_dot2 a a' b b' i j). rewrite Li, Lj. unfold r2. apply get_rollaxis; [exact B1|].
      rewrite S1. apply inr_cons; [assumption|]. apply inr_cons; [assumption|]. apply inr_app; [exact Hi|].
      apply inr_cons; [assumption|]. apply inr_app; [exact Hj|]. apply inr_single; assumption. }
    transitivity (get r0 J0).
    { rewrite <- (roll_dot1 a a' b b' i j). rewrite Li. apply get_rollaxis; [exact B0|exact I0]. }
    unfold r0, J0. rewrite get_tensordot.
    + rewrite Nl, Nr, Sl, gather_map_S, gather_prefix by assumption. rewrite Eg. apply msum_ext. intros c Hc.
      assert (Lc : length c = length ar) by (rewrite (inr_length _ _ Hc); apply gather_length).
      rewrite scatter_left by (assumption || lia || (rewrite Li; exact Lgl)).
      rewrite scatter_right by (assumption || lia || (rewrite Lj; exact Lgr)). reflexivity.
    + rewrite Nl, Sl, gather_free_phys by (try assumption; reflexivity).
      apply inr_cons; [assumption|]; apply inr_app; [assumption|apply inr_single; assumption].
    + rewrite Nr, Sr, gather_free_phys by (try assumption; reflexivity).
      apply inr_cons; [assumption|]; apply inr_app; [assumption|apply inr_single; assumption].
  - rewrite S2. unfold sh.
    change (a :: a' :: i ++ j ++ [b; b']) with ([a; a'] ++ i ++ j ++ [b; b']).
    change (ldim tl :: ldim tr :: gl ++ gr ++ [rdim tl; rdim tr]) with ([ldim tl; ldim tr] ++ gl ++ gr ++ [rdim tl; rdim tr]).
    change (a * ldim tr + a' :: (i ++ j) ++ [b * rdim tr + b']) with ([a * ldim tr + a'] ++ (i ++ j) ++ [b * rdim tr + b']).
    change (ldim tl * ldim tr :: (gl ++ gr) ++ [rdim tl * rdim tr]) with ([ldim tl * ldim tr] ++ (gl ++ gr) ++ [rdim tl * rdim tr]).
    rewrite <- !app_assoc. repeat (rewrite ravel_app by solve_inr).
    rewrite !ravel_pair, !size_app, !size_pair, !size_single. cbn [ravel]. rewrite !size_nil. ring.
Qed.
End Dot.
