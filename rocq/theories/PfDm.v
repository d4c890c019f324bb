(** [pmps_dm_to_array] (mpsmpo.py 161-192): the density matrix of a PMPS as one array. *)
From Verif Require Export PfRedPmps PfOrder.

Section Dm.
Context {K : StarRing}.
Add Ring Kr : (k_ring K).

(** Partial density matrix of a chain with open right bonds. *)
Definition dmo (ts : list (nd K)) (is js : list nat) (c c' : nat) : K :=
  msum (leg2 (map pdims ts)) (fun cs => amp ts (pairs is cs) 0 c * kconj (amp ts (pairs js cs) 0 c'))%K.

Lemma dmo_snoc (ts : list (nd K)) t m is js i j c c' s A : bonds ts 1 m -> two_legs (map pdims ts) -> pdims t = [s; A] ->
  length is = length ts -> length js = length ts -> c < rdim t -> c' < rdim t ->
  dmo (ts ++ [t]) (is ++ [i]) (js ++ [j]) c c' =
  bigsum m (fun a' => bigsum A (fun z => bigsum m (fun a => dmo ts is js a a' * ent t a [i; z] c) * kconj (ent t a' [j; z] c')))%K.
Proof.
  intros Hb H2 Ep Li Lj Hc Hc'. unfold dmo. rewrite map_app. rewrite leg2_app, msum_app. cbn [map leg2]. rewrite Ep. cbn [nth].
  rewrite (msum_ext _ _ (fun cs => bigsum m (fun a' => bigsum A (fun z => bigsum m (fun a =>
     (amp ts (pairs is cs) 0%nat a * kconj (amp ts (pairs js cs) 0%nat a') * ent t a [i; z] c) * kconj (ent t a' [j; z] c'))))))%K.
  - rewrite msum_bigsum_swap. apply bigsum_ext. intros a' _. rewrite msum_bigsum_swap. apply bigsum_ext. intros z _.
    rewrite msum_bigsum_swap. rewrite <- bigsum_mul_r. apply bigsum_ext. intros a _. rewrite !msum_mul_r. reflexivity.
  - intros cs Hcs. apply len_leg2 in Hcs. cbn [msum].
    rewrite (bigsum_swap m A). apply bigsum_ext. intros z Hz.
    rewrite (pairs_app is cs [i] [z]), (pairs_app js cs [j] [z]) by congruence.
    rewrite !(amp_app ts [t] (pairs _ cs) _ 0 _ 1 m) by (auto; rewrite pairs_length; congruence).
    cbn [pairs zip2]. rewrite bigsum_conj.
    rewrite <- bigsum_mul_l. apply bigsum_ext. intros a' Ha'.
    rewrite <- bigsum_mul_r. apply bigsum_ext. intros a Ha. rewrite !amp_one by auto. rewrite (kconj_mul K). ring.
Qed.

(** One step of the loop. *)
Lemma dm_step_spec (out t : nd K) P m s A r : ndwf out -> shp out = [P; m; m] -> ndwf t -> shp t = [m; s; A; r] -> 0 < r ->
  exists o, dm_step out t = Ok o /\ ndwf o /\ shp o = [P * s * s; r; r] /\
  forall I i j c c', I < P -> i < s -> j < s -> c < r -> c' < r ->
    get o [(I * s + i) * s + j; c; c'] =
    bigsum m (fun a' => bigsum A (fun z => bigsum m (fun a => get out [I; a; a'] * ent t a [i; z] c) * kconj (ent t a' [j; z] c')))%K.
Proof.
  intros Wo So Wt St Hr. unfold dm_step. rewrite So. unfold ldim. rewrite St. cbn [nth hd]. rewrite Nat.eqb_refl. cbn [praise_unless]. cbv zeta.
  set (o1 := tensordot out t [1] [0]).
  assert (S1 : shp o1 = [P; m; s; A; r]) by (unfold o1; rewrite shp_tensordot; unfold ndim; rewrite So, St; reflexivity).
  assert (N1 : forall I a' i z c, I < P -> a' < m -> i < s -> z < A -> c < r ->
            get o1 [I; a'; i; z; c] = bigsum m (fun a => get out [I; a; a'] * ent t a [i; z] c)%K).
  { intros. unfold o1. change [I; a'; i; z; c] with ([I; a'] ++ [i; z; c]). rewrite get_tensordot.
    - unfold ndim. rewrite So, St. cbn [gather map nth msum]. apply bigsum_ext. intros a _. reflexivity.
    - unfold ndim. rewrite So. change (inr [I; a'] [P; m]). repeat (apply inr_cons; [lia|]). constructor.
    - unfold ndim. rewrite St. change (inr [i; z; c] [s; A; r]). repeat (apply inr_cons; [lia|]). constructor. }
  assert (Sc : shp (nconj t) = [m; s; A; r]) by exact St.
  rewrite S1, Sc. change (list_eqb _ _) with (list_eqb [m; A] [m; A]). rewrite list_eqb_refl. cbn [praise_unless].
  set (o2 := tensordot o1 (nconj t) [1; 3] [0; 2]).
  assert (S2 : shp o2 = [P; s; r; s; r]) by (unfold o2; rewrite shp_tensordot; unfold ndim; rewrite S1, Sc; reflexivity).
  assert (N2 : forall I i c j c', I < P -> i < s -> c < r -> j < s -> c' < r ->
            get o2 [I; i; c; j; c'] = bigsum m (fun a' => bigsum A (fun z => get o1 [I; a'; i; z; c] * kconj (ent t a' [j; z] c')))%K).
  { intros. unfold o2. change [I; i; c; j; c'] with ([I; i; c] ++ [j; c']). rewrite get_tensordot.
    - unfold ndim. rewrite S1, Sc. cbn [gather map nth msum]. apply bigsum_ext. intros a Ha. apply bigsum_ext. intros z Hz.
      f_equal. rewrite get_nconj. reflexivity.
    - unfold ndim. rewrite S1. change (inr [I; i; c] [P; s; r]). repeat (apply inr_cons; [lia|]). constructor.
    - unfold ndim. rewrite Sc. change (inr [j; c'] [s; r]). repeat (apply inr_cons; [lia|]). constructor. }
  assert (R : 3 < ndim o2) by (unfold ndim; rewrite S2; cbn; lia).
  set (o3 := rollaxis o2 3 2).
  assert (S3 : shp o3 = [P; s; s; r; r]) by (unfold o3; rewrite shp_rollaxis by exact R; rewrite S2; reflexivity).
  assert (N3 : forall I i j c c', I < P -> i < s -> j < s -> c < r -> c' < r -> get o3 [I; i; j; c; c'] = get o2 [I; i; c; j; c']).
  { intros. unfold o3. apply (get_rollaxis o2 3 2 [I; i; c; j; c'] R). rewrite S2. repeat (apply inr_cons; [lia|]). constructor. }
  rewrite S3. cbn [nth]. unfold reshape_py. rewrite S3.
  replace (size [P; s; s; r; r]) with (size [P * s * s; r; r]) by (rewrite !size_cons, size_nil; nia).
  rewrite (resolve_shape_spec _ ([] ++ (P * s * s) :: [r; r])).
  2:{ apply (RT_one [] (P * s * s) [r; r]); rewrite ?size_nil, ?size2; nia. }
  eexists. split; [reflexivity|]. split; [|split; [reflexivity|]].
  - apply wf_reshape; [apply wf_transpose|]. rewrite S3. cbn [app]. rewrite !size_cons, !size_nil. ring.
  - intros I i j c c' HI Hi Hj Hc Hc'. rewrite (get_reshape' _ _ _ [I; i; j; c; c']).
    2:{ rewrite S3. cbn [ravel app]. rewrite !size_cons, size_nil. ring. }
    rewrite N3, N2 by auto. apply bigsum_ext. intros a' Ha'. apply bigsum_ext. intros z Hz. rewrite N1 by auto. reflexivity.
Qed.

Definition dd (ps : list (list nat)) : list nat := flat_map (fun p => [nth 0 p 0; nth 0 p 0]) ps.
Lemma dd_app a b : dd (a ++ b) = dd a ++ dd b. Proof. apply flat_map_app. Qed.
Lemma inr_dd ps : forall is js, inr is (leg1 ps) -> inr js (leg1 ps) -> inr (concat (pairs is js)) (dd ps).
Proof.
  induction ps as [|p ps IH]; intros is js Hi Hj.
  - inversion Hi; inversion Hj; subst. constructor.
  - apply inr_cons_inv in Hi. destruct Hi as (i & is' & -> & Hi & Hi'). apply inr_cons_inv in Hj. destruct Hj as (j & js' & -> & Hj & Hj').
    cbn. apply inr_cons; [exact Hi|]. apply inr_cons; [exact Hj|]. apply IH; auto.
Qed.

Lemma dm_loop_spec (us : list (nd K)) : forall ts m out, bonds (ts ++ us) 1 1 -> bonds ts 1 m -> pos us -> two_legs (map pdims (ts ++ us)) ->
  ndwf out -> shp out = [size (dd (map pdims ts)); m; m] ->
  (forall is js c c', inr is (leg1 (map pdims ts)) -> inr js (leg1 (map pdims ts)) -> c < m -> c' < m ->
     get out [ravel (dd (map pdims ts)) (concat (pairs is js)); c; c'] = dmo ts is js c c') ->
  (us = [] -> m = 1) ->
  exists o, foldM dm_step us out = Ok o /\ ndwf o /\ shp o = [size (dd (map pdims (ts ++ us))); 1; 1] /\
  forall is js, inr is (leg1 (map pdims (ts ++ us))) -> inr js (leg1 (map pdims (ts ++ us))) ->
     get o [ravel (dd (map pdims (ts ++ us))) (concat (pairs is js)); 0; 0] = dmo (ts ++ us) is js 0 0.
Proof.
  induction us as [|t us IH]; intros ts m out Hb Ht Hp H2 Wo So N Hm.
  - rewrite Hm in * by reflexivity. rewrite app_nil_r in *. exists out. split; [reflexivity|]. split; [exact Wo|]. split; [exact So|].
    intros. apply N; auto.
  - cbn [foldM].
    assert (Hbt : lt_ok t /\ ldim t = m /\ bonds us (rdim t) 1).
    { apply bonds_app in Hb. destruct Hb as (m' & Hb1 & Hb2). cbn [bonds] in Hb2. destruct Hb2 as (O & L & B).
      split; [exact O|]. split; [|exact B]. destruct ts as [|t0 ts]; [cbn in Hb1, Ht; lia|].
      rewrite L. eapply bonds_r_unique; [|exact Hb1|exact Ht]. discriminate. }
    destruct Hbt as (Ot & Lt & Bu).
    assert (H2' := H2). rewrite map_app in H2'. apply two_legs_app in H2'. destruct H2' as [H2t H2u].
    cbn [map] in H2u. destruct (two_legs_cons _ _ H2u) as (s & A & Ep & _).
    destruct (shape4_ok t s A Ot Ep) as [Es _]. rewrite Lt in Es.
    assert (Hr : 0 < rdim t) by (apply Forall_cons_iff in Hp; destruct Hp as [Hp _]; rewrite Es in Hp; rewrite !size_cons, size_nil in Hp; nia).
    destruct (dm_step_spec out t (size (dd (map pdims ts))) m s A (rdim t) Wo So (proj1 Ot) Es Hr) as (o & Eo & Woo & Soo & No).
    rewrite Eo. cbn [bind].
    assert (Eapp : ts ++ t :: us = (ts ++ [t]) ++ us) by (rewrite <- app_assoc; reflexivity).
    assert (Bt : bonds (ts ++ [t]) 1 (rdim t)) by (apply bonds_app; exists m; cbn [bonds]; auto).
    rewrite Eapp in *. apply (IH (ts ++ [t]) (rdim t) o); auto.
    + apply Forall_cons_iff in Hp. tauto.
    + rewrite Soo. rewrite map_app, dd_app, size_app. cbn [map dd flat_map app]. rewrite Ep. cbn [nth]. rewrite size2. f_equal. nia.
    + intros is js c c' Hi Hj Hc Hc'. rewrite map_app in *. rewrite leg1_app in Hi, Hj. cbn [map leg1] in Hi, Hj. rewrite Ep in Hi, Hj. cbn [nth] in Hi, Hj.
      apply Forall2_app_inv_r in Hi. destruct Hi as (is' & i1 & Hi & Hi1 & ->).
      apply Forall2_app_inv_r in Hj. destruct Hj as (js' & j1 & Hj & Hj1 & ->).
      apply inr_cons_inv in Hi1. destruct Hi1 as (i & ? & -> & Hi1 & X). inversion X; subst. clear X.
      apply inr_cons_inv in Hj1. destruct Hj1 as (j & ? & -> & Hj1 & X). inversion X; subst. clear X.
      assert (Li := len_leg1 _ _ Hi). assert (Lj := len_leg1 _ _ Hj).
      rewrite (pairs_app is' js' [i] [j]) by congruence. rewrite concat_app. rewrite dd_app. rewrite ravel_app by (apply inr_dd; auto).
      cbn [map dd flat_map app]. rewrite Ep. cbn [nth pairs zip2 concat app]. rewrite size2, ravel_pair.
      replace (ravel (dd (map pdims ts)) (concat (pairs is' js')) * (s * s) + (i * s + j)) with
        ((ravel (dd (map pdims ts)) (concat (pairs is' js')) * s + i) * s + j) by nia.
      rewrite No; auto; [|apply ravel_lt; apply inr_dd; auto].
      rewrite (dmo_snoc ts t (ldim t) is' js' i j c c' s A) by auto.
      apply bigsum_ext. intros a' Ha'. apply bigsum_ext. intros z _. f_equal. apply bigsum_ext. intros a Ha. f_equal. apply N; auto.
    + intros ->. cbn in Bu. lia.
Qed.

(** ** Dropping dimension-one sites *)
(** Dimensions larger than one, each once. *)
Definition bigd (ds : list nat) : list nat := filter (fun d => Nat.ltb 1 d) ds.
(** The indices of the sites with such a dimension. *)
Definition bigi (ds is : list nat) : list nat := map snd (filter (fun p => Nat.ltb 1 (fst p)) (combine ds is)).

Lemma bigi_inr ds : forall is, inr is ds -> inr (bigi ds is) (bigd ds).
Proof.
  induction ds as [|d ds IH]; intros is H; [inversion H; subst; constructor|].
  apply inr_cons_inv in H. destruct H as (i & is' & -> & H & H'). unfold bigi, bigd. cbn [combine filter map fst].
  destruct (Nat.ltb 1 d); [|apply IH; auto]. cbn [map snd]. apply inr_cons; [exact H|apply IH; auto].
Qed.
Lemma ravel_big ds : forall is js, inr is ds -> inr js ds -> Forall (fun d => 0 < d) ds ->
  ravel (flat_map (fun d => [d; d]) ds) (concat (pairs is js)) =
  ravel (flat_map (fun d => [d; d]) (bigd ds)) (concat (pairs (bigi ds is) (bigi ds js))) /\
  size (flat_map (fun d => [d; d]) ds) = size (flat_map (fun d => [d; d]) (bigd ds)).
Proof.
  induction ds as [|d ds IH]; intros is js Hi Hj Hp.
  - inversion Hi; inversion Hj; subst. split; reflexivity.
  - apply inr_cons_inv in Hi. destruct Hi as (i & is' & -> & Hi & Hi'). apply inr_cons_inv in Hj. destruct Hj as (j & js' & -> & Hj & Hj').
    apply Forall_cons_iff in Hp. destruct Hp as [Hp Hps]. destruct (IH is' js' Hi' Hj' Hps) as [E1 E2].
    unfold bigi, bigd. cbn [combine filter map fst]. fold (bigd ds).
    destruct (Nat.ltb_spec 1 d) as [H1|H1].
    + cbn [map snd flat_map app]. fold (bigi ds is') (bigi ds js').
      unfold pairs. cbn [zip2 concat app ravel]. fold (pairs is' js') (pairs (bigi ds is') (bigi ds js')).
      rewrite !size_cons, E1, E2. split; reflexivity.
    + fold (bigi ds is') (bigi ds js'). unfold pairs. cbn [zip2 concat app ravel flat_map]. fold (pairs is' js'). rewrite !size_cons, E1, E2.
      assert (i = 0) by lia. assert (j = 0) by lia. subst. assert (d = 1) by lia. subst. rewrite !Nat.mul_1_l. split; reflexivity.
Qed.

Lemma osh_bigd ps : flat_map (fun p => if Nat.ltb 1 (nth 0 p 0) then [nth 0 p 0; nth 0 p 0] else []) ps =
  flat_map (fun d => [d; d]) (bigd (leg1 ps)).
Proof.
  induction ps as [|p ps IH]; [reflexivity|]. unfold bigd. cbn [flat_map leg1 map filter]. fold (leg1 ps) (bigd (leg1 ps)).
  destruct (Nat.ltb 1 (nth 0 p 0)); cbn [flat_map app]; rewrite IH; reflexivity.
Qed.
Lemma dd_leg1 ps : dd ps = flat_map (fun d => [d; d]) (leg1 ps).
Proof. induction ps as [|p ps IH]; [reflexivity|]. cbn [dd flat_map leg1 map app]. fold (dd ps) (leg1 ps). rewrite IH. reflexivity. Qed.

Lemma pos_leg1 (ts : list (nd K)) : Forall lt_ok ts -> pos ts -> two_legs (map pdims ts) -> Forall (fun d => 0 < d) (leg1 (map pdims ts)).
Proof.
  induction ts as [|t ts IH]; intros Ho Hp H2; [constructor|]. apply Forall_cons_iff in Ho. apply Forall_cons_iff in Hp.
  cbn [map] in H2. destruct (two_legs_cons _ _ H2) as (s & A & Ep & H2'). cbn [map leg1]. constructor; [|apply IH; tauto].
  destruct (shape4_ok t s A (proj1 Ho) Ep) as [Es _]. destruct Hp as [Hp _]. rewrite Es in Hp. rewrite !size_cons, size_nil in Hp. rewrite Ep. cbn [nth].
  nia.
Qed.

Theorem pmps_dm_to_array_spec (x : ltens K) : mpa_pos x -> two_legs (mshape x) ->
  exists a, pmps_dm_to_array x false = Ok a /\ ndwf a /\ shp a = flat_map (fun d => [d; d]) (bigd (leg1 (mshape x))) /\
    forall is js, inr is (leg1 (mshape x)) -> inr js (leg1 (mshape x)) ->
      get a (concat (pairs (bigi (leg1 (mshape x)) is) (bigi (leg1 (mshape x)) js))) = dmat x is js.
Proof.
  intros Hx H2. destruct Hx as (Ho & Hp). pose proof Ho as [Hne Hb]. unfold pmps_dm_to_array.
  assert (E4 : forallb (fun t => Nat.eqb (ndim t) 4) (lts x) = true).
  { apply forallb_forall. intros t Ht. apply Nat.eqb_eq. pose proof (bonds_ok _ _ _ Hb) as F. rewrite Forall_forall in F. specialize (F t Ht).
    unfold two_legs in H2. rewrite Forall_forall in H2. specialize (H2 (pdims t) (in_map pdims _ _ Ht)).
    destruct (two_leg t H2) as (s & A & Ep). destruct (shape4_ok t s A F Ep) as [Es _]. unfold ndim. rewrite Es. reflexivity. }
  rewrite E4. cbn [praise_unless].
  destruct (dm_loop_spec (lts x) [] 1 (mkNd [1; 1; 1] [k1])) as (o & Eo & Wo & So & No); auto; try reflexivity.
  { intros is js c c' Hi Hj Hc Hc'. inversion Hi; inversion Hj; subst. assert (c = 0) by lia. assert (c' = 0) by lia. subst.
    unfold dmo. cbn. rewrite kconj_1. ring. }
  cbn [app] in Eo, So, No. rewrite Eo. cbn [bind]. rewrite osh_bigd. unfold reshape_py. rewrite So.
  set (ds := leg1 (mshape x)) in *.
  assert (Pd : Forall (fun d => 0 < d) ds) by (apply pos_leg1; auto; apply (bonds_ok _ _ _ Hb)).
  change (map pdims (lts x)) with (mshape x) in *. rewrite dd_leg1 in *. fold ds in So, No |- *.
  assert (Esz : size (flat_map (fun d => [d; d]) ds) = size (flat_map (fun d => [d; d]) (bigd ds))).
  { assert (Z : inr (map (fun _ => 0) ds) ds) by (clear - Pd; induction Pd; [constructor|apply inr_cons; auto]).
    apply (ravel_big ds _ _ Z Z Pd). }
  replace (size [size (flat_map (fun d => [d; d]) ds); 1; 1]) with (size (flat_map (fun d => [d; d]) (bigd ds)))
    by (rewrite !size_cons, size_nil; lia).
  rewrite (resolve_shape_spec _ (flat_map (fun d => [d; d]) (bigd ds))) by constructor. cbn [bind].
  eexists. split; [reflexivity|]. split; [|split; [reflexivity|]].
  - apply wf_reshape; [exact Wo|]. rewrite So, !size_cons, size_nil. lia.
  - intros is js Hi Hj. destruct (ravel_big ds is js Hi Hj Pd) as [E _].
    rewrite (get_reshape' _ _ _ [ravel (flat_map (fun d => [d; d]) ds) (concat (pairs is js)); 0; 0]).
    2:{ rewrite So, <- E. cbn [ravel]. rewrite !size_cons, size_nil. lia. }
    rewrite No by auto. unfold dmo, dmat. apply msum_ext. intros cs Hc. rewrite !entry_amp; auto; apply pairs_valid; auto.
Qed.

(** ** Global order *)
Lemma praise_unless_ok (A : Type) c e (k : res A) a : praise_unless c e k = Ok a -> c = true /\ k = Ok a.
Proof. destruct c; cbn; [auto|discriminate]. Qed.
Lemma nth_flat2 is : forall js i j, length is = length js -> i < length is -> j < 2 ->
  nth (i * 2 + j) (concat (pairs is js)) 0 = if Nat.eqb j 0 then nth i is 0 else nth i js 0.
Proof.
  induction is as [|a is IH]; intros [|b js] i j L Hi Hj; cbn [length] in *; try lia. unfold pairs. cbn [zip2 concat app].
  fold (pairs is js). destruct i as [|i].
  - destruct j as [|[|j]]; cbn; try lia; reflexivity.
  - cbn [Nat.mul Nat.add nth]. apply IH; lia.
Qed.
Lemma len_flat2 is : forall js, length is = length js -> length (concat (pairs is js)) = length is * 2.
Proof.
  induction is as [|a is IH]; intros [|b js] L; cbn [length] in *; try lia; [reflexivity|]. unfold pairs. cbn [zip2 concat app length]. fold (pairs is js).
  rewrite IH by lia. lia.
Qed.
Lemma gather_l2g_flat2 is js : length is = length js -> 0 < length is ->
  gather (l2g_order (length is * 2) (length is) 0 0) (concat (pairs is js)) = is ++ js.
Proof.
  intros L P. set (s := length is) in *.
  assert (Hn : s * 2 = 0 + s * 2 + 0) by lia.
  destruct (l2g_nth (s * 2) s 0 0 2 Hn P) as [L1 L2].
  apply (nth_ext _ _ 0 0); [rewrite gather_length, L1, app_length; lia|].
  intros k Hk. rewrite gather_length, L1 in Hk. rewrite nth_gather by lia. rewrite L2 by exact Hk.
  unfold l2g_axis. destruct (Nat.ltb_spec k 0); [lia|]. destruct (Nat.ltb_spec k (0 + s * 2)); [|lia]. rewrite Nat.sub_0_r.
  cbn [Nat.add].
  destruct (Nat.lt_ge_cases k s) as [Hs|Hs].
  - rewrite Nat.div_small, Nat.mod_small by exact Hs. rewrite app_nth1 by exact Hs.
    
    pose proof (nth_flat2 is js k 0 L ltac:(lia) ltac:(lia)) as E. cbn [Nat.eqb] in E. rewrite <- E. f_equal. lia.
  - rewrite app_nth2 by exact Hs. change (length is) with s.
    assert (E1 : k / s = 1) by (symmetry; apply (Nat.div_unique k s 1 (k - s)); lia).
    assert (E2 : k mod s = k - s) by (symmetry; apply (Nat.mod_unique k s 1 (k - s)); lia).
    rewrite E1, E2. pose proof (nth_flat2 is js (k - s) 1 L ltac:(lia) ltac:(lia)) as E. cbn [Nat.eqb] in E. rewrite <- E. f_equal. lia.
Qed.
Lemma flat2_same ds : flat_map (fun d : nat => [d; d]) ds = concat (pairs ds ds).
Proof. induction ds as [|d ds IH]; [reflexivity|]. unfold pairs. cbn [flat_map zip2 concat app]. fold (pairs ds ds). rewrite IH. reflexivity. Qed.
Lemma len_bigi ds is : inr is ds -> length (bigi ds is) = length (bigd ds).
Proof. intros H. apply (inr_length _ _ (bigi_inr ds is H)). Qed.

Theorem pmps_dm_to_array_global (x : ltens K) D : mpa_pos x -> two_legs (mshape x) ->
  bigd (leg1 (mshape x)) <> [] -> Forall (fun d => d = D) (bigd (leg1 (mshape x))) ->
  exists a, pmps_dm_to_array x true = Ok a /\ ndwf a /\ shp a = bigd (leg1 (mshape x)) ++ bigd (leg1 (mshape x)) /\
    forall is js, inr is (leg1 (mshape x)) -> inr js (leg1 (mshape x)) ->
      get a (bigi (leg1 (mshape x)) is ++ bigi (leg1 (mshape x)) js) = dmat x is js.
Proof.
  intros Hx H2 Hbig HD. destruct (pmps_dm_to_array_spec x Hx H2) as (a & Ea & Wa & Sa & Na).
  unfold pmps_dm_to_array in *. destruct (praise_unless_ok _ _ _ _ _ Ea) as [E4 Ea']. rewrite E4. cbn [praise_unless].
  destruct (foldM dm_step (lts x) (mkNd [1; 1; 1] [k1])) as [o|e]; [|discriminate]. cbn [bind] in Ea' |- *.
  destruct (reshape_py o _) as [a'|e]; [|discriminate]. cbn [bind] in Ea' |- *. injection Ea' as ->.
  rewrite osh_bigd. set (bd := bigd (leg1 (mshape x))) in *. set (ds := leg1 (mshape x)) in *.
  assert (Lb : 0 < length bd) by (destruct bd; [congruence|cbn; lia]).
  assert (E5 : match flat_map (fun d => [d; d]) bd with [] => false | d :: r => forallb (Nat.eqb d) r end = true).
  { destruct bd as [|d bd']; [congruence|]. cbn [flat_map app]. apply Forall_cons_iff in HD. destruct HD as [-> HD].
    apply forallb_forall. intros y [<-|Hy]; [apply Nat.eqb_refl|]. apply in_flat_map in Hy. destruct Hy as (y' & Hy' & Hy).
    rewrite Forall_forall in HD. apply HD in Hy'. subst y'. destruct Hy as [<-|[<-|[]]]; apply Nat.eqb_refl. }
  rewrite E5. cbn [passert].
  assert (Ln : length (flat_map (fun d => [d; d]) bd) = length bd * 2) by (rewrite flat2_same; apply len_flat2; reflexivity).
  rewrite Ln, Nat.div_mul by lia. unfold local_to_global. destruct (Nat.eqb_spec (length bd) 0); [lia|].
  assert (Nd : ndim a = length bd * 2) by (unfold ndim; rewrite Sa; exact Ln). rewrite Nd.
  assert (Hn : length bd * 2 = 0 + length bd * 2 + 0) by lia.
  destruct (l2g_nth (length bd * 2) (length bd) 0 0 2 Hn Lb) as [L1 _].
  pose proof (l2g_perm (length bd * 2) (length bd) 0 0 2 Hn Lb) as P2.
  cbn [Nat.add]. rewrite Nat.sub_0_r, (Nat.mul_comm (length bd)), Nat.mod_mul by lia. cbn [Nat.eqb passert].
  rewrite (Nat.mul_comm 2). eexists. split; [reflexivity|]. split; [apply wf_transpose|].
  split; [rewrite shp_transpose, Sa, flat2_same; apply gather_l2g_flat2; auto|].
  intros is js Hi Hj. pose proof (len_bigi ds is Hi) as Li. pose proof (len_bigi ds js Hj) as Lj. fold bd in Li, Lj.
  rewrite <- (gather_l2g_flat2 (bigi ds is) (bigi ds js)) by lia. rewrite Li.
  rewrite get_transpose_gather; [apply Na; auto|exact P2|rewrite Nd; exact L1|].
  - rewrite Sa, flat2_same. pose proof (bigi_inr ds is Hi) as H1. pose proof (bigi_inr ds js Hj) as H3. fold bd in H1, H3.
    revert H1 H3. generalize (bigi ds is) (bigi ds js) bd. clear. intros is js bd. revert is js. induction bd as [|d bd IH]; intros is js Hi Hj.
    + inversion Hi; inversion Hj; subst. constructor.
    + apply inr_cons_inv in Hi. destruct Hi as (i & is' & -> & Hi & Hi'). apply inr_cons_inv in Hj. destruct Hj as (j & js' & -> & Hj & Hj').
      cbn. apply inr_cons; [exact Hi|]. apply inr_cons; [exact Hj|]. apply IH; auto.
Qed.
Theorem pmps_dm_to_array_global_error (x : ltens K) : mpa_pos x -> two_legs (mshape x) ->
  (bigd (leg1 (mshape x)) = [] \/ exists d d', In d (bigd (leg1 (mshape x))) /\ In d' (bigd (leg1 (mshape x))) /\ d <> d') ->
  pmps_dm_to_array x true = Err AssertionError.
Proof.
  intros Hx H2 Hbad. destruct (pmps_dm_to_array_spec x Hx H2) as (a & Ea & _).
  unfold pmps_dm_to_array in *. destruct (praise_unless_ok _ _ _ _ _ Ea) as [E4 Ea']. rewrite E4. cbn [praise_unless].
  destruct (foldM dm_step (lts x) (mkNd [1; 1; 1] [k1])) as [o|e]; [|discriminate]. cbn [bind] in Ea' |- *.
  destruct (reshape_py o _) as [a'|e]; [|discriminate]. cbn [bind] in Ea' |- *. rewrite osh_bigd.
  set (bd := bigd (leg1 (mshape x))) in *.
  assert (E5 : match flat_map (fun d => [d; d]) bd with [] => false | d :: r => forallb (Nat.eqb d) r end = false).
  { destruct bd as [|e bd']; [reflexivity|]. destruct Hbad as [Hbad|(d & d' & Hd & Hd' & Nd)]; [discriminate|].
    cbn [flat_map app]. apply not_true_is_false. intros E. rewrite forallb_forall in E.
    assert (A : forall y, In y (e :: bd') -> y = e).
    { intros y [<-|Hy]; [reflexivity|]. symmetry. apply Nat.eqb_eq. apply E. right. apply in_flat_map. exists y. split; [exact Hy|left; reflexivity]. }
    rewrite (A d Hd), (A d' Hd') in Nd. congruence. }
  rewrite E5. reflexivity.
Qed.
End Dm.
