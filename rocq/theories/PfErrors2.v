(** Rejected arguments of the operations on several MPArrays, of traces, diagonals and slices. *)
From Verif Require Import CanonSpec Chain Dense PfSum PfAdd PfDot PfDots PfInner PfEstim MpStruct MpArray PfErrors.
From Coq Require Import Lia.
Open Scope nat_scope.

Lemma Forall2_rev2 {A B : Type} (R : A -> B -> Prop) l m : Forall2 R l m -> Forall2 R (rev l) (rev m).
Proof. induction 1; [constructor|]. cbn [rev]. apply Forall2_app; [assumption|constructor; [assumption|constructor]]. Qed.

Section Errors2.
Context {K : StarRing}.
Add Ring Kr : (k_ring K).

(** ** [+] *)
Lemma compat_virt p q : compat (1 :: p ++ [1]) (1 :: q ++ [1]) <-> compat p q.
Proof.
  unfold compat. cbn [rev]. rewrite !rev_app_distr. cbn [rev app compat_rev]. generalize (rev p) as a, (rev q) as b. clear.
  assert (G : forall a b, compat_rev (a ++ [1]) (b ++ [1]) <-> compat_rev a b).
  { induction a as [|d a IH]; intros [|e b]; cbn [app compat_rev]; try (destruct a; cbn; tauto); try (destruct b; cbn; tauto); try tauto. rewrite IH. tauto. }
  intros a b. rewrite G. tauto.
Qed.
Lemma common_virt p q : common (1 :: p ++ [1]) (1 :: q ++ [1]) = 1 :: common p q ++ [1].
Proof.
  unfold common. cbn [rev]. rewrite !rev_app_distr. cbn [rev app common_rev Nat.eqb]. generalize (rev p) as a, (rev q) as b. clear.
  assert (G : forall a b, common_rev (a ++ [1]) (b ++ [1]) = common_rev a b ++ [1]).
  { induction a as [|d a IH]; intros [|e b]; cbn [app common_rev Nat.eqb]; try reflexivity.
    - destruct (Nat.eqb_spec d 1) as [->|]; destruct a; reflexivity.
    - rewrite IH. reflexivity. }
  intros a b. rewrite G. cbn [rev]. rewrite rev_app_distr. reflexivity.
Qed.
Lemma restrict_virt v idx : length v <= length idx -> restrict (1 :: v ++ [1]) (0 :: idx ++ [0]) = 0 :: restrict v idx ++ [0].
Proof.
  intros L. unfold restrict. cbn [length]. rewrite !app_length. cbn [length]. replace (S (length idx + 1) - S (length v + 1)) with (length idx - length v) by lia. set (k := length idx - length v).
  assert (G : exists x0, skipn k (0 :: idx ++ [0]) = x0 :: skipn k idx ++ [0]).
  { assert (Hk : k <= length idx) by (unfold k; lia). revert Hk. generalize k. clear. assert (Q : forall l z k, k <= length l -> exists x0, skipn k (z :: l ++ [0]) = x0 :: skipn k l ++ [0]); [|intros k; apply Q].
    induction l as [|a l IH]; intros z [|k] H; cbn [length] in H; try lia; [exists z; reflexivity|exists z; reflexivity|].
    destruct (IH a k ltac:(lia)) as [x0 E]. exists x0. cbn [skipn app] in *. exact E. }
  destruct G as [x0 ->]. cbn [combine map fst snd Nat.eqb]. f_equal. assert (Lv : length v = length (skipn k idx)) by (rewrite skipn_length; unfold k; lia).
  rewrite combine_split by exact Lv. rewrite map_app. cbn [map combine fst snd Nat.eqb]. reflexivity.
Qed.
Lemma fits_len v sh : fits v sh -> length v <= length sh.
Proof. intros F. apply bcast_ok_iff in F. unfold bcast_ok in F. apply andb_true_iff in F. destruct F as [F _]. apply Nat.leb_le. exact F. Qed.
Lemma amp_one (t : nd K) i : rdim t = 1 -> amp [t] [i] 0 0 = ent t 0 i 0.
Proof. intros H. cbn [amp]. rewrite H. cbn [bigsum]. unfold delta. cbn. ring. Qed.
Lemma inr_rep_snoc p i b c : inr i p -> b < c -> inr (0 :: i ++ [b]) (1 :: p ++ [c]).
Proof. intros Hi Hb. constructor; [lia|]. apply Forall2_app; [exact Hi|]. constructor; [exact Hb|constructor]. Qed.
Theorem add_one (x y : ltens K) p q : mpa_ok x -> mpa_ok y -> mshape x = [p] -> mshape y = [q] ->
  (compat p q -> exists z, madd x y = Ok z /\ mpa_ok z /\ mshape z = [common p q] /\ forall i, inr i (common p q) -> entry z [i] = (entry x [restrict p i] + entry y [restrict q i])%K) /\
  (~ compat p q -> madd x y = Err ValueError).
Proof.
  intros Hx Hy Sx Sy. unfold mshape in Sx, Sy. destruct (lts x) as [|t [|]] eqn:Ex; try discriminate. destruct (lts y) as [|u [|]] eqn:Ey; try discriminate. injection Sx as Sx. injection Sy as Sy.
  assert (Bx := proj2 Hx). assert (By := proj2 Hy). rewrite Ex in Bx. rewrite Ey in By. destruct Bx as (Wt & Lt & Rt), By as (Wu & Lu & Ru). cbn [bonds] in Rt, Ru.
  assert (St : shp t = 1 :: p ++ [1]) by (rewrite (lt_ok_shp t Wt), Lt, Rt, Sx; reflexivity). assert (Su : shp u = 1 :: q ++ [1]) by (rewrite (lt_ok_shp u Wu), Lu, Ru, Sy; reflexivity).
  destruct (nadd_py_spec t u (proj1 Wt) (proj1 Wu)) as [A B]. rewrite St, Su, compat_virt, common_virt in A. rewrite St, Su, compat_virt in B.
  unfold madd, llen. rewrite Ex, Ey. cbn [length Nat.eqb passert hd]. split.
  - intros C. destruct (A C) as (c & Ec & Wc & Sc & V). rewrite Ec. cbn [bind]. assert (Oc : lt_ok c) by (eapply lt_ok_mk; [exact Wc|exact Sc]).
    assert (Bc : bonds [c] 1 1) by (cbn [bonds]; split; [exact Oc|]; split; [eapply ldim_mk; exact Sc|eapply rdim_mk; exact Sc]).
    rewrite (mpa_new_ok [c] 1 1) by (discriminate || exact Bc). eexists. split; [reflexivity|]. assert (Hz : mpa_ok (mkLt [c] 0 (Z.of_nat (length [c])))) by (split; [discriminate|exact Bc]). split; [exact Hz|].
    assert (Pc : pdims c = common p q) by (eapply pdims_mk; exact Sc). split; [unfold mshape; cbn [lts map]; rewrite Pc; reflexivity|].
    destruct (proj1 (compat_iff p q) C) as [F1 F2]. assert (RI : forall v i, fits v (common p q) -> inr i (common p q) -> inr (restrict v i) v).
    { intros v i F Hi. clear - F Hi. unfold restrict. pose proof (fits_len _ _ F) as L. rewrite (inr_length _ _ Hi). unfold fits in F. set (k := length (common p q) - length v).
      assert (G : forall v sh i, fits_rev v sh -> inr i sh -> inr (map (fun p => if fst p =? 1 then 0 else snd p) (combine v i)) v).
      { clear. induction v as [|d v IH]; intros [|e sh] i F Hi; cbn [fits_rev] in F; try tauto; try (cbn; constructor).
        inversion Hi as [|? ? ? ? Ha Hr]; subst. cbn [combine map fst snd]. destruct F as [F1 F2]. constructor; [destruct (Nat.eqb_spec d 1); lia|apply (IH sh); assumption]. }
      assert (Hi' : inr (rev i) (rev (common p q))) by (unfold inr in *; apply Forall2_rev2; exact Hi). specialize (G _ _ _ F Hi'). unfold inr in G. apply Forall2_rev2 in G. rewrite rev_involutive in G. rewrite <- map_rev in G.
      assert (Li : length i = length (common p q)) by exact (inr_length _ _ Hi).
      replace (rev (combine (rev v) (rev i))) with (combine v (skipn k i)) in G; [exact G|].
      assert (Q : combine (rev v) (rev i) = combine (rev v) (rev (skipn k i))).
      { rewrite <- (firstn_skipn k i) at 1. rewrite rev_app_distr. assert (LL : length (rev v) = length (rev (skipn k i))) by (rewrite !rev_length, skipn_length; unfold k; lia). revert LL. generalize (rev v) as a, (rev (skipn k i)) as b, (rev (firstn k i)) as c. clear.
        induction a as [|d a IH]; intros [|e b] c LL; try discriminate; [destruct c; reflexivity|]. cbn [app combine]. rewrite IH by (injection LL; auto). reflexivity. }
      rewrite Q, <- rev_combine, rev_involutive; [reflexivity|]. rewrite skipn_length. unfold k. lia. }
    intros i Hi. rewrite !entry_amp.
    + rewrite Ex, Ey. cbn [lts]. rewrite !amp_one by (assumption || exact (proj2 (proj2 Bc))). unfold ent. rewrite V by (apply inr_rep_snoc; [exact Hi|lia]).
      assert (L1 : length p <= length i) by (rewrite (inr_length _ _ Hi); apply fits_len; exact F1). assert (L2 : length q <= length i) by (rewrite (inr_length _ _ Hi); apply fits_len; exact F2). rewrite !restrict_virt by assumption. reflexivity.
    + exact Hy.
    + unfold mshape. rewrite Ey. cbn [map]. rewrite Sy. constructor; [apply RI; assumption|constructor].
    + exact Hx.
    + unfold mshape. rewrite Ex. cbn [map]. rewrite Sx. constructor; [apply RI; assumption|constructor].
    + exact Hz.
    + unfold mshape. cbn [lts map]. rewrite Pc. constructor; [exact Hi|constructor].
  - intros C. rewrite (B C). reflexivity.
Qed.
(** Two or more sites: equal shapes at both ends, elsewhere the second summand is repeated to the shape of the first. *)
Definition addable (t u : nd K) : Prop := fits (shp u) (ldim u :: pdims t ++ [rdim u]).
Theorem add_many_err (x y : ltens K) t0 mt tn u0 mu un : Forall lt_ok (lts x) -> Forall lt_ok (lts y) ->
  lts x = t0 :: mt ++ [tn] -> lts y = u0 :: mu ++ [un] -> length mt = length mu ->
  ~ (ldim t0 :: pdims t0 = ldim u0 :: pdims u0 /\ Forall (fun p => addable (fst p) (snd p)) (combine mt mu) /\ pdims tn ++ [rdim tn] = pdims un ++ [rdim un]) -> madd x y = Err ValueError.
Proof.
  intros Wx Wy Ex Ey L H. unfold madd, llen. rewrite Ex, Ey. cbn [length]. rewrite !app_length, L. cbn [length]. rewrite Nat.eqb_refl. cbn [passert]. replace (S (length mu + 1) =? 1) with false by (symmetry; apply Nat.eqb_neq; lia).
  assert (IS : forall (a : nd K) l b, inner_slice (a :: l ++ [b]) = l) by (intros; unfold inner_slice; cbn [tl]; apply removelast_last).
  assert (LS : forall (a : nd K) l b d, List.last (a :: l ++ [b]) d = b) by (intros; change (a :: l ++ [b]) with ((a :: l) ++ [b]); apply last_last).
  rewrite !IS, !LS. cbn [hd].
  assert (Wt0 : lt_ok t0) by (rewrite Ex in Wx; inversion Wx; assumption). assert (Wu0 : lt_ok u0) by (rewrite Ey in Wy; inversion Wy; assumption).
  assert (Wtn : lt_ok tn) by (rewrite Ex in Wx; inversion Wx as [|? ? _ Q]; apply Forall_app in Q; destruct Q as [_ Q]; inversion Q; assumption). assert (Wun : lt_ok un) by (rewrite Ey in Wy; inversion Wy as [|? ? _ Q]; apply Forall_app in Q; destruct Q as [_ Q]; inversion Q; assumption).
  assert (SC : forall (a : nd K), lt_ok a -> set_nth (ndim a - 1) 0 (shp a) = (ldim a :: pdims a) ++ [0]).
  { intros a Wa. rewrite (lt_ok_shp a Wa). change (ldim a :: pdims a ++ [rdim a]) with ((ldim a :: pdims a) ++ [rdim a]). apply set_nth_last. rewrite (ndim_lt a Wa). cbn. lia. }
  unfold cat_last_py, concatenate_ok. cbn [forallb].
  destruct (list_eqb (set_nth (ndim t0 - 1) 0 (shp t0)) (set_nth (ndim t0 - 1) 0 (shp t0)) && (ndim t0 - 1 <? ndim t0) && _) eqn:F; [|reflexivity]. cbn [praise_unless bind].
  assert (E0 : ldim t0 :: pdims t0 = ldim u0 :: pdims u0).
  { apply andb_true_iff in F. destruct F as [_ F]. rewrite andb_true_r in F. apply andb_true_iff in F. destruct F as [F1 F2]. apply list_eqb_eq in F1. apply Nat.ltb_lt in F2.
    assert (N : ndim u0 = ndim t0) by (unfold ndim; rewrite <- (set_nth_length _ (ndim t0 - 1) 0 (shp u0)), F1, set_nth_length; reflexivity). rewrite <- N in F1 at 1. rewrite !SC in F1 by assumption. apply app_inv_tail in F1. symmetry. exact F1. }
  assert (LA : forall t u, lt_ok t -> lt_ok u -> (exists r, local_add [t; u] = Ok r /\ addable t u) \/ (local_add [t; u] = Err ValueError /\ ~ addable t u)).
  { intros t u Wt Wu. unfold local_add. cbn [local_add_loop map list_sum]. unfold slice_assign_ok.
    set (z := zeros _). assert (P0 : pdims z = pdims t) by (eapply pdims_mk; reflexivity). rewrite P0, <- (lt_ok_shp t Wt), bcast_ok_refl. cbn [praise_unless].
    assert (P1 : pdims (slice_assign z 0 0 t) = pdims t) by (eapply pdims_mk; reflexivity). rewrite P1.
    destruct (bcast_ok (ldim u :: pdims t ++ [rdim u]) (shp u)) eqn:B; [left; eexists; split; [reflexivity|]; apply bcast_ok_iff; exact B|right; split; [reflexivity|]]. intros Q. apply bcast_ok_iff in Q. congruence. }
  assert (Wm : Forall (fun p => lt_ok (fst p) /\ lt_ok (snd p)) (combine mt mu)).
  { apply Forall_forall. intros [a b] Hp. split; [apply in_combine_l in Hp; apply (proj1 (Forall_forall _ _) Wx); rewrite Ex; right; apply in_or_app; left; exact Hp|apply in_combine_r in Hp; apply (proj1 (Forall_forall _ _) Wy); rewrite Ey; right; apply in_or_app; left; exact Hp]. }
  assert (DM : (exists ms, mapM (fun p => local_add [fst p; snd p]) (combine mt mu) = Ok ms /\ Forall (fun p => addable (fst p) (snd p)) (combine mt mu)) \/ mapM (fun p => local_add [fst p; snd p]) (combine mt mu) = Err ValueError).
  { clear - LA Wm. induction Wm as [|[t u] l [Wt Wu] Wm IH]; [left; exists []; split; [reflexivity|constructor]|]. cbn [mapM fst snd] in *. destruct (LA t u Wt Wu) as [(r & E & A)|[E _]]; rewrite E; [|right; reflexivity]. cbn [bind]. destruct IH as [(ms & E' & F)| ->]; [|right; reflexivity].
    rewrite E'. left. eexists. split; [reflexivity|]. constructor; assumption. }
  destruct DM as [(ms & Em & Fm)| ->]; [|reflexivity]. rewrite Em. cbn [bind]. unfold cat_first_py, concatenate_ok. cbn [forallb].
  destruct (list_eqb (set_nth 0 0 (shp tn)) (set_nth 0 0 (shp tn)) && (0 <? ndim tn) && _) eqn:G; [|reflexivity]. exfalso. apply H. split; [exact E0|]. split; [exact Fm|].
  apply andb_true_iff in G. destruct G as [_ G]. rewrite andb_true_r in G. apply andb_true_iff in G. destruct G as [G _]. apply list_eqb_eq in G. rewrite (lt_ok_shp tn Wtn), (lt_ok_shp un Wun), !set_nth_0 in G. injection G as G. symmetry. exact G.
Qed.

(** ** [dot], [inner] *)
Theorem dot_err_length (x y : ltens K) ax : llen x <> llen y -> mdot x y ax = Err AssertionError /\ minner x y = Err AssertionError /\ localouter x y = Err AssertionError.
Proof. intros H. unfold mdot, minner, localouter. apply Nat.eqb_neq in H. rewrite H. auto. Qed.
Theorem dot_err_number (x y : ltens K) la lb : llen x = llen y -> lts x <> [] -> length la <> length lb -> mdot x y (ASeq la lb) = Err AssertionError.
Proof.
  intros L N H. unfold mdot. rewrite L, Nat.eqb_refl. cbn [passert]. unfold llen in L. destruct (lts x) as [|t ts]; [congruence|]. destruct (lts y) as [|u us]; [discriminate|]. cbn [combine mapM fst snd]. unfold local_dot at 1. cbn [true_axes fst snd]. rewrite !map_length.
  apply Nat.eqb_neq in H. rewrite H. reflexivity.
Qed.
(** All axes are physical legs, pairwise different, with equal dimensions. *)
Definition contractible (t u : nd K) (la lb : list Z) : Prop := exists al ar,
  legs_at (length (pdims t)) la al /\ legs_at (length (pdims u)) lb ar /\ NoDup al /\ NoDup ar /\ gather al (pdims t) = gather ar (pdims u).
Lemma true_leg_range n z : in_range (S (S n)) (true_leg z) <-> (- Z.of_nat n - 1 <= z <= Z.of_nat n)%Z.
Proof. unfold in_range, true_leg. destruct (Z.leb_spec 0 z); lia. Qed.
Lemma Forall2_len {A B : Type} (R : A -> B -> Prop) l m : Forall2 R l m -> length l = length m.
Proof. induction 1; cbn; congruence. Qed.
Lemma legs_fun n zs al al' : legs_at n zs al -> legs_at n zs al' -> al = al'.
Proof. intros H. revert al'. induction H as [|z k zs al Hz H IH]; intros al' H'; inversion H'; subst; [reflexivity|]. f_equal; [congruence|apply IH; assumption]. Qed.
Theorem dot_err (x y : ltens K) la lb tpre t tpost upre u upost : Forall lt_ok (lts x) -> Forall lt_ok (lts y) -> length la = length lb ->
  lts x = tpre ++ t :: tpost -> lts y = upre ++ u :: upost -> length tpre = length upre -> length tpost = length upost ->
  Forall (fun p => contractible (fst p) (snd p) la lb) (combine tpre upre) ->
  let far n z := (z < - Z.of_nat n - 1 \/ Z.of_nat n < z)%Z in
  (Exists (far (length (pdims t))) la \/ Exists (far (length (pdims u))) lb -> mdot x y (ASeq la lb) = Err IndexError) /\
  (forall al ar, legs_at (length (pdims t)) la al -> legs_at (length (pdims u)) lb ar -> ~ (NoDup al /\ NoDup ar /\ gather al (pdims t) = gather ar (pdims u)) -> mdot x y (ASeq la lb) = Err ValueError).
Proof.
  intros Wx Wy Lab Ex Ey L1 L2 Hp far.
  assert (Wt : lt_ok t) by (apply (proj1 (Forall_forall _ _) Wx); rewrite Ex; apply in_or_app; right; left; reflexivity). assert (Wu : lt_ok u) by (apply (proj1 (Forall_forall _ _) Wy); rewrite Ey; apply in_or_app; right; left; reflexivity).
  set (f := fun p : nd K * nd K => local_dot (fst p) (snd p) (true_axes (ASeq la lb))).
  assert (P : Forall (fun b => exists c, f b = Ok c) (combine tpre upre)).
  { apply Forall_forall. intros [a b] Hi. pose proof (proj1 (Forall_forall _ _) Hp _ Hi) as (al & ar & A1 & A2 & A3 & A4 & A5). cbn [fst snd] in *.
    assert (Wa : lt_ok a) by (apply (proj1 (Forall_forall _ _) Wx); rewrite Ex; apply in_or_app; left; eapply in_combine_l; exact Hi). assert (Wb : lt_ok b) by (apply (proj1 (Forall_forall _ _) Wy); rewrite Ey; apply in_or_app; left; eapply in_combine_r; exact Hi).
    destruct (local_dot_spec a b (ASeq la lb) al ar Wa Wb A1 A2 A3 A4 A5) as (c & Ec & _). exists c. exact Ec. }
  assert (G : forall e, f (t, u) = Err e -> mdot x y (ASeq la lb) = Err e).
  { intros e Ee. unfold mdot, llen. rewrite Ex, Ey, !app_length, L1. cbn [length]. rewrite L2, Nat.eqb_refl. cbn [passert]. fold f. rewrite combine_split by exact L1. rewrite (mapM_first f _ _ _ e P Ee). reflexivity. }
  assert (FR : forall n l, Exists (far n) l <-> ~ Forall (in_range (S (S n))) (map true_leg l)).
  { intros n l. rewrite Forall_map. split.
    - intros Ex' F. apply Exists_exists in Ex'. destruct Ex' as (z & Hz & Q). pose proof (proj1 (Forall_forall _ _) F z Hz) as R. apply true_leg_range in R. unfold far in Q. lia.
    - intros N. apply neg_Forall_Exists_neg in N; [|intros z; apply in_range_dec]. eapply Exists_impl; [|exact N]. intros z R. unfold far. destruct (Z_lt_dec z (- Z.of_nat n - 1)); [left; assumption|]. destruct (Z_lt_dec (Z.of_nat n) z); [right; assumption|]. exfalso. apply R. apply true_leg_range. lia. }
  split.
  - intros H. apply G. unfold f, local_dot. cbn [fst snd true_axes]. rewrite !map_length, Lab, Nat.eqb_refl. cbn [passert]. rewrite (ndim_lt t Wt), (ndim_lt u Wu).
    destruct (Forall_dec_in (S (S (length (pdims t)))) (map true_leg la)) as [F|F]; [|rewrite mapM_idx_err by exact F; reflexivity]. rewrite mapM_idx by exact F. cbn [bind].
    destruct H as [H|H]; [exfalso; apply FR in H; contradiction|]. apply FR in H. rewrite mapM_idx_err by exact H. reflexivity.
  - intros al ar A1 A2 N. apply G. unfold f, local_dot. cbn [fst snd true_axes]. rewrite !map_length, Lab, Nat.eqb_refl. cbn [passert]. rewrite (ndim_lt t Wt), (ndim_lt u Wu), (mapM_legs _ _ _ IndexError A1), (mapM_legs _ _ _ IndexError A2). cbn [bind].
    destruct (nodupb (map S al) && nodupb (map S ar) && list_eqb _ _) eqn:B; [|reflexivity]. exfalso. apply N. apply andb_true_iff in B. destruct B as [B B3]. apply andb_true_iff in B. destruct B as [B1 B2].
    apply nodupb_iff in B1, B2. split; [eapply NoDup_map_inv; exact B1|]. split; [eapply NoDup_map_inv; exact B2|].
    apply list_eqb_eq in B3. assert (GA : forall (a : nd K) l, lt_ok a -> (forall k, In k l -> k < length (pdims a)) -> gather (map S l) (shp a) = gather l (pdims a)).
    { intros a l Wa Hl. unfold gather. rewrite map_map. apply map_ext_in. intros k Hk. rewrite (lt_ok_shp a Wa). cbn [nth]. rewrite app_nth1 by (apply Hl; exact Hk). reflexivity. }
    rewrite !GA in B3 by (first [assumption | eapply legs_at_lt; eassumption]). exact B3.
Qed.
Lemma local_dot_11 (r s : nd K) a b c d e f : shp r = [a; b; c] -> shp s = [d; e; f] ->
  ((exists w, local_dot r s ([1%Z], [1%Z]) = Ok w) \/ local_dot r s ([1%Z], [1%Z]) = Err ValueError) /\ (b <> e -> local_dot r s ([1%Z], [1%Z]) = Err ValueError).
Proof.
  intros Sr Ss. assert (E : local_dot r s ([1%Z], [1%Z]) = praise_unless (list_eqb [b] [e]) ValueError (
    let r0 := tensordot r s [1] [1] in let r1 := rollaxis r0 (ndim r - 1) 1 in let r2 := rollaxis r1 (ndim r - 1) (ndim r + ndim s - 1 - 1 - 1) in
    let sh := (ldim r * ldim s) :: removelast (removelast (List.tl (List.tl (shp r2)))) ++ [rdim r * rdim s] in praise_unless (reshape_ok r2 sh) ValueError (Ok (reshape r2 sh)))).
  { unfold local_dot. assert (Nr : ndim r = 3) by (unfold ndim; rewrite Sr; reflexivity). assert (Ns : ndim s = 3) by (unfold ndim; rewrite Ss; reflexivity). rewrite Nr, Ns. unfold gather. rewrite Sr, Ss. reflexivity. }
  rewrite E. clear E. split.
  - destruct (list_eqb [b] [e]); [|right; reflexivity]. cbv zeta. destruct (reshape_ok _ _); [left; eexists; reflexivity|right; reflexivity].
  - intros N. destruct (list_eqb [b] [e]) eqn:Q; [|reflexivity]. apply list_eqb_eq in Q. congruence.
Qed.
Theorem inner_err (x y : ltens K) : Forall lt_ok (lts x) -> Forall lt_ok (lts y) -> llen x = llen y ->
  Exists (fun p => size (pdims (fst p)) <> size (pdims (snd p))) (combine (lts x) (lts y)) -> minner x y = Err ValueError.
Proof.
  intros Wx Wy L Ex. unfold minner. rewrite L, Nat.eqb_refl. cbn [passert].
  assert (RV : forall t : nd K, lt_ok t -> (exists r, local_ravel t = Ok r /\ shp r = [ldim t; size (pdims t); rdim t]) \/ local_ravel t = Err ValueError).
  { intros t Wt. destruct (Nat.eq_dec (ldim t) 0) as [Z|Z]; [|destruct (Nat.eq_dec (rdim t) 0) as [Z'|Z']].
    - right. unfold local_ravel, local_reshape, reshape_py, resolve_shape. rewrite Z. cbn [app existsb filter length fold_right Z.of_nat Z.eqb Z.ltb Z.compare Z.mul orb]. destruct (Z.ltb_spec (Z.of_nat (rdim t)) (-1)); [lia|]. destruct (Z.eqb_spec (Z.of_nat (rdim t)) (-1)); [lia|]. reflexivity.
    - right. unfold local_ravel, local_reshape, reshape_py, resolve_shape. rewrite Z'. cbn [app existsb filter length fold_right Z.of_nat Z.eqb Z.ltb Z.compare Z.mul orb]. destruct (Z.ltb_spec (Z.of_nat (ldim t)) (-1)); [lia|]. destruct (Z.eqb_spec (Z.of_nat (ldim t)) (-1)); [lia|]. cbn. rewrite Z.mul_0_r. reflexivity.
    - left. exists (rav t). split; [apply local_ravel_eq; [exact Wt|lia]|]. destruct (rav_spec t Wt) as [B [P _]]. destruct B as (W & B1 & B2). rewrite (lt_ok_shp _ W), P, B1, B2. reflexivity. }
  rewrite (mapM_err1 _ ValueError); [reflexivity| |].
  - apply Forall_forall. intros [t u] Hi. cbn [fst snd]. destruct (RV t) as [(r & E & Sr)| ->]; [apply (proj1 (Forall_forall _ _) Wx); eapply in_combine_l; exact Hi| |right; reflexivity]. rewrite E. cbn [bind].
    destruct (RV u) as [(s & E' & Ss)| ->]; [apply (proj1 (Forall_forall _ _) Wy); eapply in_combine_r; exact Hi| |right; reflexivity]. rewrite E'. cbn [bind].
    exact (proj1 (local_dot_11 (nconj r) s _ _ _ _ _ _ Sr Ss)).
  - apply Exists_exists in Ex. destruct Ex as ([t u] & Hi & Ne). apply Exists_exists. exists (t, u). split; [exact Hi|]. cbn [fst snd] in *. destruct (RV t) as [(r & E & Sr)| ->]; [apply (proj1 (Forall_forall _ _) Wx); eapply in_combine_l; exact Hi| |reflexivity]. rewrite E. cbn [bind].
    destruct (RV u) as [(s & E' & Ss)| ->]; [apply (proj1 (Forall_forall _ _) Wy); eapply in_combine_r; exact Hi| |reflexivity]. rewrite E'. cbn [bind].
    exact (proj2 (local_dot_11 (nconj r) s _ _ _ _ _ _ Sr Ss) Ne).
Qed.
End Errors2.
