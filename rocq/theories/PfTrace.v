(** diag, prune, partialtrace, trace. *)
From Verif Require Export PfSelect.

Section Trace.
Context {K : StarRing}.
Add Ring Kr : (k_ring K).

(** ** prune *)
Definition has_legs (p : list nat) : bool := negb (Nat.eqb (length p) 0).
(** Physical shapes after removing the sites without legs (one site remains). *)
Definition pruned (ps : list (list nat)) : list (list nat) :=
  match filter has_legs ps with [] => [[]] | l => l end.

Lemma matdot_lt (t u : nd K) : lt_ok t -> lt_ok u -> rdim t = ldim u ->
  lt_ok (matdot t u) /\ ldim (matdot t u) = ldim t /\ rdim (matdot t u) = rdim u /\ pdims (matdot t u) = pdims t ++ pdims u.
Proof.
  intros Ht Hu E. pose proof (ltens_to_array_spec [t; u] (ldim t) (rdim u) ltac:(discriminate)) as H. cbn zeta in H.
  destruct H as [H1 [H2 [H3 [H4 _]]]].
  - cbn [bonds]. auto.
  - cbn [ltens_to_array fold_left map concat] in *. rewrite app_nil_r in H4. auto.
Qed.

Lemma pruned_cons_nil ps : pruned ([] :: ps) = pruned ps.
Proof. reflexivity. Qed.

Lemma prune_loop_spec (ts : list (nd K)) : forall last l r, bonds (last :: ts) l r ->
  let us := prune_loop last ts in
  us <> [] /\ bonds us l r /\ map pdims us = pruned (map pdims (last :: ts)) /\
  forall is js a b, Forall2 inr is (map pdims (last :: ts)) -> Forall2 inr js (map pdims us) ->
    concat is = concat js -> a < l -> b < r -> amp us js a b = amp (last :: ts) is a b.
Proof.
  induction ts as [|t ts IH]; intros last l r Hb us.
  - subst us. cbn [prune_loop]. split; [discriminate|]. split; [exact Hb|]. split.
    { unfold pruned, has_legs. cbn. destruct (pdims last); reflexivity. }
    intros is js a b Hi Hj E Ha Hlb. inversion Hi as [|i ? ? ? Hi1 Hi2]; subst. inversion Hi2; subst.
    inversion Hj as [|j ? ? ? Hj1 Hj2]; subst. inversion Hj2; subst. cbn [concat] in E. rewrite !app_nil_r in E. subst. reflexivity.
  - destruct Hb as [H1 [H2 [H3 [H4 H5]]]].
    assert (D2 : forall v : nd K, lt_ok v -> Nat.eqb (ndim v) 2 = negb (has_legs (pdims v))).
    { intros v Hv. rewrite (ndim_lt _ Hv). unfold has_legs. destruct (pdims v); reflexivity. }
    subst us. cbn [prune_loop]. rewrite !D2 by assumption.
    destruct (negb (has_legs (pdims t)) || negb (has_legs (pdims last))) eqn:Em.
    + destruct (matdot_lt last t H1 H3 (eq_sym H4)) as [M1 [M2 [M3 M4]]].
      destruct (IH (matdot last t) l r) as [I1 [I2 [I3 I4]]].
      { cbn [bonds]. split; [exact M1|]. split; [congruence|]. rewrite M3. exact H5. }
      split; [exact I1|]. split; [exact I2|]. split.
      { rewrite I3. cbn [map]. rewrite M4. unfold pruned. cbn [filter].
        destruct (pdims last) as [|d p]; [reflexivity|]. destruct (pdims t) as [|e q]; [|discriminate].
        rewrite app_nil_r. reflexivity. }
      intros is js a b Hi Hj E Ha Hlb. inversion Hi as [|i ? is1 ? Hi1 Hi2]; subst. inversion Hi2 as [|i' ? is2 ? Hi3 Hi4]; subst.
      rewrite (I4 ((i ++ i') :: is2) js a b); auto.
      * cbn [amp]. rewrite M3.
        transitivity (bigsum (rdim t) (fun c => bigsum (rdim last) (fun d => ent last a i d * ent t d i' c) * amp ts is2 c b))%K.
        { apply bigsum_ext. intros c Hc. rewrite ent_matdot by (auto; lia). reflexivity. }
        transitivity (bigsum (rdim t) (fun c => bigsum (rdim last) (fun d => ent last a i d * (ent t d i' c * amp ts is2 c b))))%K.
        { apply bigsum_ext. intros c Hc. rewrite <- bigsum_mul_r. apply bigsum_ext. intros; ring. }
        rewrite bigsum_swap. apply bigsum_ext. intros d Hd. apply bigsum_mul_l.
      * cbn [map]. rewrite M4. constructor; [apply inr_app; assumption|exact Hi4].
      * rewrite <- E. cbn [concat]. rewrite app_assoc. reflexivity.
    + apply orb_false_iff in Em. destruct Em as [Em1 Em2]. apply negb_false_iff in Em1, Em2.
      destruct (IH t (rdim last) r) as [I1 [I2 [I3 I4]]].
      { cbn [bonds]. split; [exact H3|]. split; [exact H4|exact H5]. }
      split; [discriminate|]. split; [cbn [bonds]; auto|]. split.
      { cbn [map]. rewrite I3. unfold pruned. cbn [map filter]. rewrite Em1, Em2. reflexivity. }
      intros is js a b Hi Hj E Ha Hlb. inversion Hi as [|i ? is1 ? Hi1 Hi2]; subst.
      cbn [map] in Hj. inversion Hj as [|j ? js1 ? Hj1 Hj2]; subst. cbn [concat] in E.
      apply app_inj_len in E; [|rewrite (inr_length _ _ Hi1), (inr_length _ _ Hj1); reflexivity]. destruct E as [-> E].
      cbn [amp]. apply bigsum_ext. intros c Hc. f_equal. apply I4; auto.
Qed.

Lemma prune_ltens_spec (ts : list (nd K)) l r : ts <> [] -> bonds ts l r ->
  let us := prune_ltens ts in
  us <> [] /\ bonds us l r /\ map pdims us = pruned (map pdims ts) /\
  forall is js a b, Forall2 inr is (map pdims ts) -> Forall2 inr js (map pdims us) ->
    concat is = concat js -> a < l -> b < r -> amp us js a b = amp ts is a b.
Proof. intros Hne Hb. destruct ts as [|t ts]; [congruence|]. apply prune_loop_spec. exact Hb. Qed.

Lemma filter_concat (ps : list (list nat)) : concat (filter has_legs ps) = concat ps.
Proof. induction ps as [|p ps IH]; [reflexivity|]. cbn [filter concat]. destruct p as [|d p]; [exact IH|]. cbn. rewrite IH. reflexivity. Qed.
Lemma pruned_concat ps : concat (pruned ps) = concat ps.
Proof. rewrite <- (filter_concat ps). unfold pruned. destruct (filter has_legs ps); reflexivity. Qed.

Theorem prune_plain_spec (x : ltens K) : mpa_ok x ->
  exists z, prune x false = Ok z /\ mpa_ok z /\ mshape z = pruned (mshape x) /\
    canonical_form z = (0%Z, Z.of_nat (llen z)) /\ to_array z = to_array x.
Proof.
  intros [Hne Hb]. destruct (prune_ltens_spec (lts x) 1 1 Hne Hb) as [P1 [P2 [P3 P4]]].
  destruct (mpa_new_chain _ P1 P2) as [z [Ez [Hz [Lz [Cl Cr]]]]]. exists z.
  split; [unfold prune; cbn [andb bind]; exact Ez|]. split; [exact Hz|].
  assert (Sz : mshape z = pruned (mshape x)) by (unfold mshape at 1; rewrite Lz; exact P3).
  split; [exact Sz|]. split; [unfold canonical_form, llen; rewrite Cl, Cr, Lz; reflexivity|].
  symmetry. apply to_array_ext; [split; assumption|apply wf_to_array| |].
  { rewrite shp_to_array by exact Hz. rewrite Sz. apply pruned_concat. }
  intros is Hi.
  assert (HI : inr (concat is) (concat (mshape z))).
  { rewrite Sz, pruned_concat. apply inr_concat. exact Hi. }
  apply inr_concat_inv in HI. destruct HI as [js [E Hj]]. rewrite E, get_to_array by assumption.
  rewrite Lz. symmetry. apply P4; auto. unfold idx_ok in Hj. unfold mshape in Hj. rewrite Lz in Hj. exact Hj.
Qed.

(** With [singletons=True] the legs of sites of size one are dropped first. *)
Definition drop1 (p : list nat) : list nat := if Nat.eqb (size p) 1 then [] else p.
Definition drop1_idx (p i : list nat) : list nat := if Nat.eqb (size p) 1 then [] else i.

Theorem prune_single_spec (x : ltens K) : mpa_ok x -> cform_ok x ->
  exists z, prune x true = Ok z /\ mpa_ok z /\ mshape z = pruned (map drop1 (mshape x)) /\
    forall is, Forall2 inr is (mshape x) ->
      get (to_array z) (concat (zip2 drop1_idx (mshape x) is)) = get (to_array x) (concat is).
Proof.
  intros Hx Hc.
  set (sel := existsb (fun p => Nat.eqb (size p) 1) (mshape x)).
  assert (Y : exists y, (if true && sel then mreshape x (RList (map (fun p => if Nat.eqb (size p) 1 then [] else map Z.of_nat p) (mshape x))) else Ok x) = Ok y /\
     mpa_ok y /\ mshape y = map drop1 (mshape x) /\
     forall is, Forall2 inr is (mshape x) -> amp (lts y) (zip2 drop1_idx (mshape x) is) 0 0 = amp (lts x) is 0 0).
  { cbn [andb]. destruct sel eqn:Es; unfold sel in Es.
    - assert (F : Forall3 site_reshape_ok (lts x) (map (fun p => if Nat.eqb (size p) 1 then [] else map Z.of_nat p) (mshape x)) (map drop1 (mshape x))).
      { unfold mshape. rewrite !map_map. clear. induction (lts x) as [|t ts IH]; cbn [map]; constructor; auto.
        unfold site_reshape_ok, drop1. destruct (Nat.eqb_spec (size (pdims t)) 1) as [E|E].
        - split; [rewrite E; reflexivity|]. split; [apply (RT_all [])|left; reflexivity].
        - split; [reflexivity|]. split; [apply RT_all|left; reflexivity]. }
      assert (Ne : reshape_nonempty (RList (map (fun p => if Nat.eqb (size p) 1 then [] else map Z.of_nat p) (mshape x)))).
      { cbn. destruct Hx as [Hne _]. unfold mshape. destruct (lts x); [congruence|discriminate]. }
      destruct (mreshape_spec x _ _ Hx Hc Ne F) as [y [E [Hy [Sy [_ [_ [_ A]]]]]]]. exists y. split; [exact E|]. split; [exact Hy|]. split; [exact Sy|].
      intros is Hi. apply A; [exact Hi| |].
      + clear -Hi. induction Hi as [|i p is ps Hi Hs IH]; cbn [map zip2]; constructor; auto.
        unfold drop1, drop1_idx. destruct (size p =? 1); [constructor|exact Hi].
      + clear -Hi. induction Hi as [|i p is ps Hi Hs IH]; cbn [map zip2]; [reflexivity|]. f_equal; [|exact IH].
        unfold drop1, drop1_idx. destruct (Nat.eqb_spec (size p) 1); [|reflexivity]. pose proof (ravel_lt _ _ Hi). cbn. lia.
    - exists x. split; [reflexivity|]. split; [exact Hx|].
      assert (N : forall p, In p (mshape x) -> Nat.eqb (size p) 1 = false).
      { intros p Hp. destruct (Nat.eqb (size p) 1) eqn:E; [|reflexivity]. assert (existsb (fun p => size p =? 1) (mshape x) = true); [|congruence].
        apply existsb_exists. exists p. auto. }
      split. { rewrite <- (map_id (mshape x)) at 1. apply map_ext_in. intros p Hp. unfold drop1. rewrite N by exact Hp. reflexivity. }
      intros is Hi. f_equal. clear -N Hi. induction Hi as [|i p is ps Hi Hs IH]; [reflexivity|]. cbn [zip2]. unfold drop1_idx at 1. rewrite (N p (or_introl eq_refl)).
      f_equal. apply IH. intros q Hq. apply N. right; exact Hq. }
  destruct Y as [y [Ey [Hy [Sy Ay]]]]. destruct (prune_plain_spec y Hy) as [z [Ez [Hz [Sz [_ Tz]]]]].
  exists z. unfold prune in *. cbn [andb] in Ez. fold sel. rewrite Ey. cbn [bind] in *. split; [exact Ez|]. split; [exact Hz|].
  split; [congruence|]. intros is Hi. rewrite Tz.
  assert (Hj : Forall2 inr (zip2 drop1_idx (mshape x) is) (mshape y)).
  { rewrite Sy. clear -Hi. induction Hi as [|i p is ps Hi Hs IH]; cbn [map zip2]; constructor; auto.
    unfold drop1, drop1_idx. destruct (size p =? 1); [constructor|exact Hi]. }
  rewrite !get_to_array by assumption. apply Ay. exact Hi.
Qed.

(** ** partialtrace *)
(** Traced pair of legs of each site ([None]: nothing). *)
Definition tr_rest (q : option (nat * nat)) (p : list nat) : list nat :=
  match q with None => p | Some (a, b) => rest_dims [a; b] p end.
Definition tr_dims (q : option (nat * nat)) (p : list nat) : list nat :=
  match q with None => [] | Some (a, b) => [Nat.min (nth a p 0) (nth b p 0)] end.
Definition tr_idx (q : option (nat * nat)) (p i c : list nat) : list nat :=
  match q with None => i | Some (a, b) => merge_idx [a; b] p i (c ++ c) end.
Definition tr_ok (q : option (nat * nat)) (p : list nat) : Prop :=
  match q with None => True | Some (a, b) => a < length p /\ b < length p /\ a <> b end.

Definition tr_arg (n : nat) (ax : option (Z * Z)) : option (nat * nat) :=
  match ax with
  | None => None
  | Some (a, b) => match pyidx n a, pyidx n b with Some i, Some j => Some (i, j) | _, _ => None end
  end.
Definition tr_arg_ok (ax : option (Z * Z)) (p : list nat) : Prop :=
  match ax with
  | None => True
  | Some (a, b) => (- Z.of_nat (length p) <= a < Z.of_nat (length p))%Z /\
                   (- Z.of_nat (length p) <= b < Z.of_nat (length p))%Z /\
                   pyidx (length p) a <> pyidx (length p) b
  end.

Lemma trace_site (t : nd K) ax : lt_ok t -> tr_arg_ok ax (pdims t) ->
  exists u, (match ax with None => Ok t | Some q => local_trace t q end) = Ok u /\
    site_lin tr_rest tr_dims tr_idx (tr_arg (length (pdims t)) ax) t u.
Proof.
  intros Ht Hax. pose proof (lt_ok_shp _ Ht) as Es. destruct ax as [[za zb]|].
  - destruct Hax as [Ha [Hb Hn]]. destruct (proj1 (pyidx_range _ _) Ha) as [a Ea]. destruct (proj1 (pyidx_range _ _) Hb) as [b Eb].
    assert (Hla := pyidx_lt _ _ _ Ea). assert (Hlb := pyidx_lt _ _ _ Eb). rewrite Ea, Eb in Hn.
    assert (Hab : a <> b) by congruence. set (n := length (pdims t)) in *.
    exists (trace_axes t (S a) (S b)). split.
    + unfold local_trace. cbn [fst snd]. rewrite (ndim_lt _ Ht). fold n. rewrite (true_leg_pyidx _ _ _ Ea), (true_leg_pyidx _ _ _ Eb).
      destruct (Nat.eqb_spec (S a) (S b)); [lia|]. reflexivity.
    + cbn [tr_arg]. rewrite Ea, Eb.
      assert (Hd : NoDup [a; b]) by (constructor; [intros [->|[]]; congruence|repeat constructor; auto]).
      assert (Hin : forall k, In k [a; b] -> k < n) by (intros k [<-|[<-|[]]]; assumption).
      assert (E : shp (trace_axes t (S a) (S b)) = ldim t :: rest_dims [a; b] (pdims t) ++ [rdim t]).
      { unfold trace_axes. rewrite shp_tab, (ndim_lt _ Ht), Es. apply (gather_free_phys n [a; b]); auto. }
      assert (Ep := pdims_mk _ _ _ _ E). assert (El := ldim_mk _ _ _ E). assert (Er := rdim_mk _ _ _ _ E).
      split; [split; [eapply lt_ok_mk; [apply wf_tab|exact E]|split; assumption]|]. split; [exact Ep|].
      intros x i y Hx Hy Hi. unfold ent at 1, trace_axes. rewrite get_tab.
      2:{ pose proof E as E'. unfold trace_axes in E'. rewrite shp_tab in E'. rewrite E'. apply inr_cons; [exact Hx|]. apply inr_app; [exact Hi|apply inr_single; exact Hy]. }
      unfold tr_dims. cbn [msum].
      assert (Nt : forall k, k < n -> nth (S k) (shp t) 0 = nth k (pdims t) 0) by (intros k Hk; rewrite Es; cbn [nth]; apply app_nth1; exact Hk).
      rewrite !Nt by assumption. apply bigsum_ext. intros c Hc.
      rewrite (ndim_lt _ Ht). fold n. cbn [tr_idx]. unfold merge_idx. fold n.
      change [S a; S b] with (map S [a; b]). rewrite scatter_left; auto.
      rewrite (inr_length _ _ Hi). cbn [tr_rest]. unfold rest_dims. rewrite gather_length. reflexivity.
  - exists t. split; [reflexivity|]. split; [split; [exact Ht|split; reflexivity]|]. split; [reflexivity|].
    intros a i b Ha Hb Hi. reflexivity.
Qed.

(** Per-site argument. *)
Definition pt_axes (x : ltens K) (arg : ptarg) : list (option (Z * Z)) :=
  match arg with PTAll a b => map (fun _ => Some (a, b)) (lts x) | PTSites l => l end.

Theorem partialtrace_spec (x : ltens K) arg :
  mpa_ok x -> Forall2 tr_arg_ok (pt_axes x arg) (mshape x) ->
  let qs := zip2 (fun ax p => tr_arg (length p) ax) (pt_axes x arg) (mshape x) in
  let rest := zip2 tr_rest qs (mshape x) in
  exists z, partialtrace x arg = Ok z /\ mpa_ok z /\ mshape z = pruned rest /\
    canonical_form z = (0%Z, Z.of_nat (llen z)) /\
    forall js, Forall2 inr js rest ->
      get (to_array z) (concat js) =
      msums (zip2 tr_dims qs (mshape x)) (fun cs => amp (lts x) (zip4 tr_idx qs (mshape x) js cs) 0 0).
Proof.
  intros [Hne Hb] HT qs rest. pose proof (bonds_ok _ _ _ Hb) as Ho.
  set (axs := pt_axes x arg) in *.
  assert (EA : (match arg with
                | PTAll a b => Ok (map (fun _ => Some (a, b)) (lts x)) | PTSites [] => Err IndexError | PTSites l => Ok l end) = Ok axs).
  { unfold axs, pt_axes. destruct arg as [a b|[|e l]]; try reflexivity. exfalso. unfold axs, pt_axes in HT. inversion HT as [E1 E2|].
    unfold mshape in E2. destruct (lts x); [congruence|discriminate]. }
  assert (EG : forallb (fun p => match snd p with None => true | Some (a, b) => pt_axis_ok (fst p) a && pt_axis_ok (fst p) b end) (combine (ndims x) axs) = true).
  { unfold ndims, mshape in *. clear -HT Ho. revert HT. generalize axs. clear axs. induction Ho as [|t ts Ht Ho IH]; intros axs HT; [reflexivity|].
    inversion HT as [|ax ? axs' ? H1 H2]; subst. cbn [map combine forallb fst snd]. rewrite IH by assumption. rewrite andb_true_r.
    destruct ax as [[a b]|]; [|reflexivity]. destruct H1 as [Ha [Hb _]]. unfold pt_axis_ok. rewrite (ndim_lt _ Ht).
    rewrite !andb_true_iff, !Z.leb_le, !Z.ltb_lt. lia. }
  assert (G : exists us, mapM (fun p => match snd p with None => Ok (fst p) | Some ax => local_trace (fst p) ax end) (combine (lts x) axs) = Ok us /\
                         Forall3 (site_lin tr_rest tr_dims tr_idx) qs (lts x) us).
  { unfold qs, mshape in *. clear -HT Ho. revert HT. generalize axs. clear axs. induction Ho as [|t ts Ht Ho IH]; intros axs HT.
    - inversion HT; subst. exists []. split; [reflexivity|constructor].
    - inversion HT as [|ax ? axs' ? H1 H2]; subst. destruct (IH axs' H2) as [us [E F]]. destruct (trace_site t ax Ht H1) as [u [Eu Lu]].
      exists (u :: us). split; [|cbn [map zip2]; constructor; assumption]. cbn [combine mapM fst snd]. rewrite Eu. cbn [bind]. rewrite E. reflexivity. }
  destruct G as [us [E2 F]]. destruct (lin_chain _ _ _ _ _ _ _ _ F Hb) as [B [R [P [L A]]]].
  assert (Hne2 : us <> []) by (intros ->; destruct (lts x); [congruence|discriminate]).
  destruct (prune_ltens_spec us 1 1 Hne2 B) as [P1 [P2 [P3 P4]]].
  destruct (mpa_new_chain _ P1 P2) as [z [Ez [Hz [Lz [Cl Cr]]]]]. exists z.
  split. { unfold partialtrace. rewrite EA. cbn [bind]. rewrite EG. cbn [passert bind]. rewrite E2. cbn [bind]. exact Ez. }
  split; [exact Hz|].
  assert (Sz : mshape z = pruned rest) by (unfold mshape at 1; rewrite Lz, P3, P; reflexivity).
  split; [exact Sz|]. split; [unfold canonical_form, llen; rewrite Cl, Cr, Lz; reflexivity|].
  intros js Hj.
  assert (HI : inr (concat js) (concat (mshape z))) by (rewrite Sz, pruned_concat; apply inr_concat; exact Hj).
  apply inr_concat_inv in HI. destruct HI as [ks [E Hk]]. rewrite E, get_to_array by assumption. rewrite Lz.
  transitivity (amp us js 0 0); [apply P4|apply A]; auto.
  - rewrite P. exact Hj.
  - unfold mshape in Hk. rewrite Lz in Hk. exact Hk.
Qed.

(** All legs traced: the trace of the represented array. *)
Theorem mtrace_spec (x : ltens K) arg :
  mpa_ok x -> Forall2 tr_arg_ok (pt_axes x arg) (mshape x) ->
  let qs := zip2 (fun ax p => tr_arg (length p) ax) (pt_axes x arg) (mshape x) in
  Forall (fun p => p = []) (zip2 tr_rest qs (mshape x)) ->
  mtrace x arg = Ok (msums (zip2 tr_dims qs (mshape x))
                       (fun cs => amp (lts x) (zip4 tr_idx qs (mshape x) (map (fun _ => []) (mshape x)) cs) 0 0)).
Proof.
  intros Hx HT qs HE. destruct (partialtrace_spec x arg Hx HT) as [z [Ez [Hz [Sz [_ A]]]]]. fold qs in Sz, A.
  unfold mtrace. rewrite Ez. cbn [bind].
  assert (C : concat (zip2 tr_rest qs (mshape x)) = []).
  { clear -HE. induction HE as [|p ps Hp HE IH]; [reflexivity|]. subst. exact IH. }
  assert (S0 : shp (to_array z) = []) by (rewrite shp_to_array by exact Hz; rewrite Sz, pruned_concat; exact C).
  rewrite S0. cbn [passert]. change (size [] =? 1) with true. cbn [passert]. f_equal.
  assert (Lq : length qs = length (mshape x)).
  { unfold qs. rewrite zip2_length; exact (Forall2_len _ _ _ _ _ HT). }
  assert (Hj : Forall2 inr (map (fun _ => []) (mshape x)) (zip2 tr_rest qs (mshape x))).
  { clear -HE Lq. revert Lq HE. generalize (mshape x). induction qs as [|q qs IH]; intros [|p ps] Lq HE; try discriminate; cbn [map zip2]; [constructor|].
    cbn [zip2] in HE. inversion HE as [|? ? H1 H2]; subst. constructor; [rewrite H1; constructor|apply IH; [injection Lq as Lq; exact Lq|exact H2]]. }
  specialize (A _ Hj).
  assert (C2 : concat (map (fun _ : list nat => @nil nat) (mshape x)) = []) by (clear; induction (mshape x); [reflexivity|assumption]).
  rewrite C2 in A. rewrite <- A. unfold get. rewrite S0. reflexivity.
Qed.

(** ** diag *)
Theorem mdiag_spec (x : ltens K) ax dim :
  mpa_ok x -> (forall p, In p (mshape x) -> ax < length p /\ nth ax p 0 = dim /\ length p = length (hd [] (mshape x))) ->
  exists zs, length zs = dim /\
    mdiag x (Z.of_nat ax) = Ok (if Nat.eqb (length (hd [] (mshape x))) 1 then DiagArr (map to_array zs) else DiagMpa zs) /\
    forall k, k < dim -> let z := nth k zs (mkLt [] 0 0) in
      mpa_ok z /\ mshape z = map (remove_at ax) (mshape x) /\
      forall js, Forall2 inr js (mshape z) -> amp (lts z) js 0 0 = amp (lts x) (map (insert_at ax k) js) 0 0.
Proof.
  intros [Hne Hb] HP. pose proof (bonds_ok _ _ _ Hb) as Ho.
  assert (Hm : exists s0 ss, mshape x = s0 :: ss) by (unfold mshape; destruct (lts x); [congruence|cbn; eauto]).
  destruct Hm as [s0 [ss Em]]. rewrite Em in HP. cbn [hd] in *.
  assert (W : forall k, k < dim -> exists z, (do ts <- mapM (local_index (Z.to_nat (Z.of_nat ax + 1)) k) (lts x); mpa_new ts) = Ok z /\
     mpa_ok z /\ mshape z = map (remove_at ax) (mshape x) /\
      forall js, Forall2 inr js (mshape z) -> amp (lts z) js 0 0 = amp (lts x) (map (insert_at ax k) js) 0 0).
  { intros k Hk. replace (Z.to_nat (Z.of_nat ax + 1)) with (S ax) by lia. rewrite <- Em in HP.
    assert (G : mapM (local_index (S ax) k) (lts x) = Ok (map (take_axis (S ax) k) (lts x)) /\
       Forall3 (site_lin drop_dim no_dims put_idx) (map (fun _ => (ax, k)) (lts x)) (lts x) (map (take_axis (S ax) k) (lts x))).
    { assert (HQ : forall p, In p (mshape x) -> ax < length p /\ nth ax p 0 = dim) by (intros p Hp; destruct (HP p Hp) as [Q1 [Q2 _]]; auto).
      clear HP. unfold mshape in HQ. clear -Ho HQ Hk. induction Ho as [|t ts Ht Ho IH]; [split; [reflexivity|constructor]|].
      destruct IH as [E F]; [intros p Hp; apply HQ; right; exact Hp|]. destruct (HQ (pdims t) (or_introl eq_refl)) as [H1 H2].
      split; [|cbn [map]; constructor; [apply take_axis_lin; [exact Ht|exact H1|lia]|exact F]].
      cbn [mapM map]. unfold local_index at 1. rewrite (lt_ok_shp _ Ht). cbn [nth_error].
      rewrite nth_error_app1 by exact H1. rewrite (nth_error_nth' _ 0 H1), H2. destruct (Nat.ltb_spec k dim); [|lia]. cbn [bind]. rewrite E. reflexivity. }
    destruct G as [E F]. destruct (lin_chain _ _ _ _ _ _ _ _ F Hb) as [B [R [P [L A]]]].
    set (us := map (take_axis (S ax) k) (lts x)) in *.
    assert (Hne2 : us <> []) by (intros E0; rewrite E0 in L; destruct (lts x); [congruence|discriminate]).
    destruct (mpa_new_chain us Hne2 B) as [z [Ez [Hz [Lz _]]]]. exists z. split; [rewrite E; exact Ez|]. split; [exact Hz|].
    assert (Sz : mshape z = map (remove_at ax) (mshape x)).
    { unfold mshape at 1. rewrite Lz, P. unfold mshape. clear. induction (lts x) as [|t ts IH]; [reflexivity|]. cbn [map zip2]. rewrite IH. reflexivity. }
    split; [exact Sz|]. intros js Hj. rewrite Lz, A; auto.
    2:{ unfold mshape in Hj. rewrite Lz, P in Hj. exact Hj. }
    assert (ZN : zip2 no_dims (map (fun _ : nd K => (ax, k)) (lts x)) (map pdims (lts x)) = map (fun _ => []) (lts x)).
    { clear. induction (lts x) as [|t ts IH]; [reflexivity|]. cbn [map zip2]. rewrite IH. reflexivity. }
    rewrite ZN.
    assert (MN : forall (l : list (nd K)) (f : list (list nat) -> K), msums (map (fun _ => []) l) f = f (map (fun _ => []) l)).
    { clear. induction l as [|n l IH]; intros f; [reflexivity|]. cbn [map msums msum]. rewrite IH. reflexivity. }
    rewrite MN. f_equal. rewrite Sz in Hj. unfold mshape in Hj. clear -Hj. revert js Hj. induction (lts x) as [|t ts IH]; intros js Hj; inversion Hj; subst; [reflexivity|].
    cbn [map zip4]. rewrite IH by assumption. reflexivity. }
  assert (HQ : exists zs, mapM (fun i => do ts <- mapM (local_index (Z.to_nat (Z.of_nat ax + 1)) i) (lts x); mpa_new ts) (seq 0 dim) = Ok zs).
  { assert (H : forall k, In k (seq 0 dim) -> k < dim) by (intros k Hk; apply in_seq in Hk; lia). revert H. generalize (seq 0 dim).
    induction l as [|k l IH]; intros H; [eexists; reflexivity|]. destruct (W k (H k (or_introl eq_refl))) as [z [Ez _]].
    destruct IH as [zs Ezs]; [intros j Hj; apply H; right; exact Hj|]. exists (z :: zs). cbn [mapM]. rewrite Ez. cbn [bind]. rewrite Ezs. reflexivity. }
  destruct HQ as [zs Ezs]. pose proof (mapM_inv _ _ _ _ _ Ezs) as FI. assert (LZ := Forall2_len _ _ _ _ _ FI). rewrite seq_length in LZ.
  exists zs. split; [symmetry; exact LZ|]. split.
  - unfold mdiag. rewrite Em. cbn [pyget]. unfold pyget at 1. cbn [length]. replace (pyidx (S (length ss)) 0) with (Some 0) by (symmetry; apply (pyidx_in 0); lia).
    cbn [nth_error bind]. destruct (HP s0 (or_introl eq_refl)) as [H1 [H2 _]].
    rewrite (pyget_in _ _ ax 0 H1), H2. cbn [bind].
    assert (ED : mapM (fun d => pyget d (Z.of_nat ax)) (s0 :: ss) = Ok (map (fun _ => dim) (s0 :: ss))).
    { apply mapM_ok_map. intros p Hp. destruct (HP p Hp) as [Q1 [Q2 _]]. rewrite (pyget_in _ _ ax 0 Q1), Q2. reflexivity. }
    rewrite ED. cbn [bind].
    assert (F1 : forallb (fun d => d =? dim) (map (fun _ : list nat => dim) (s0 :: ss)) = true).
    { apply forallb_forall. intros d Hd. apply in_map_iff in Hd. destruct Hd as [? [<- _]]. apply Nat.eqb_refl. }
    assert (F2 : forallb (fun d => length d =? length s0) (s0 :: ss) = true).
    { apply forallb_forall. intros p Hp. destruct (HP p Hp) as [_ [_ Q3]]. apply Nat.eqb_eq. exact Q3. }
    rewrite F1, F2. cbn [passert]. rewrite Ezs. cbn [bind hd]. destruct (length s0 =? 1); reflexivity.
  - intros k Hk. set (z := nth k zs (mkLt [] 0 0)). destruct (W k Hk) as [z' [Ez' H']]. assert (z' = z) as <-; [|exact H'].
    assert (GN : forall l zs, Forall2 (fun i z => (do ts <- mapM (local_index (Z.to_nat (Z.of_nat ax + 1)) i) (lts x); mpa_new ts) = Ok z) l zs ->
       forall n, n < length l -> (do ts <- mapM (local_index (Z.to_nat (Z.of_nat ax + 1)) (nth n l 0)) (lts x); mpa_new ts) = Ok (nth n zs (mkLt [] 0 0))).
    { clear. induction 1 as [|i z l zs H F IH]; intros n Hn; [cbn in Hn; lia|]. destruct n; [exact H|]. cbn [nth]. apply IH. cbn in Hn; lia. }
    specialize (GN _ _ FI k). rewrite seq_length in GN. specialize (GN Hk). rewrite seq_nth in GN by exact Hk. cbn [Nat.add] in GN.
    rewrite Ez' in GN. injection GN as ->. reflexivity.
Qed.
End Trace.
