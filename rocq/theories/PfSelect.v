(** sum, get, axis_iter, diag. *)
From Verif Require Export PfInner.

Fixpoint zip4 {A B C D E : Type} (f : A -> B -> C -> D -> E) (l : list A) (m : list B) (n : list C) (o : list D) : list E :=
  match l, m, n, o with
  | x :: l', y :: m', z :: n', w :: o' => f x y z w :: zip4 f l' m' n' o'
  | _, _, _, _ => []
  end.

Lemma zip2_zip3 (A B C D E : Type) (g : A -> B -> C -> D -> E) l m n o :
  zip2 (fun h c => h c) (zip3 g l m n) o = zip4 g l m n o.
Proof. revert m n o; induction l as [|x l IH]; intros [|y m] [|z n] [|w o]; try reflexivity. cbn. rewrite IH. reflexivity. Qed.

Section LinChain.
Context {K : StarRing}.
Add Ring Kr : (k_ring K).
Context {A : Type}.
Implicit Types (f sh : A -> list nat -> list nat) (g : A -> list nat -> list nat -> list nat -> list nat).

(** Each entry of [u] is a sum of entries of [t]. *)
Definition site_lin f sh g (x : A) (t u : nd K) : Prop :=
  same_bonds t u /\ pdims u = f x (pdims t) /\
  forall a i b, a < ldim t -> b < rdim t -> inr i (f x (pdims t)) ->
    ent u a i b = msum (sh x (pdims t)) (fun c => ent t a (g x (pdims t) i c) b).

Lemma lin_chain f sh g xs (ts us : list (nd K)) l r :
  Forall3 (site_lin f sh g) xs ts us -> bonds ts l r ->
  bonds us l r /\ map ldim us = map ldim ts /\ map pdims us = zip2 f xs (map pdims ts) /\
  length us = length ts /\
  forall js a b, Forall2 inr js (zip2 f xs (map pdims ts)) -> a < l -> b < r ->
    amp us js a b = msums (zip2 sh xs (map pdims ts)) (fun cs => amp ts (zip4 g xs (map pdims ts) js cs) a b).
Proof.
  intros F Hb.
  assert (S : Forall2 same_bonds ts us).
  { clear Hb. induction F as [|x t u xs ts us [H _] F IH]; constructor; assumption. }
  split; [eapply bonds_same; eassumption|]. split; [apply ranks_same; exact S|].
  split. { clear Hb S. induction F as [|x t u xs ts us [_ [H _]] F IH]; [reflexivity|]. cbn. congruence. }
  split. { symmetry. exact (Forall2_len _ _ _ _ _ S). }
  intros js a b Hj Ha Hb'.
  assert (L : lin_amp ts us js (zip2 sh xs (map pdims ts)) (zip3 g xs (map pdims ts) js)).
  { clear Hb S Ha Hb'. revert js Hj. induction F as [|x t u xs ts us [[_ [_ H1]] [H2 H3]] F IH]; intros js Hj.
    - inversion Hj; subst. constructor.
    - cbn [map zip2] in Hj. inversion Hj as [|j ? js' ? Hj1 Hj2]; subst. cbn [map zip2 zip3]. constructor; [exact H1| |apply IH; exact Hj2].
      intros a1 b1 Ha1 Hb1. apply H3; assumption. }
  rewrite (amp_lin _ _ _ _ _ L l r a b Hb Ha Hb'). apply msums_ext. intros cs Hcs. rewrite zip2_zip3. reflexivity.
Qed.
End LinChain.

Section Select.
Context {K : StarRing}.
Add Ring Kr : (k_ring K).

(** ** Sums *)
(** Legs of a site of shape [p] other than [al]; the summed legs; the index with
    entries [c] at the legs [al] and [i] elsewhere. *)
Definition rest_dims (al p : list nat) : list nat := gather (freeaxes (length p) al) p.
Definition sel_dims (al p : list nat) : list nat := gather al p.
Definition merge_idx (al p i c : list nat) : list nat := fuse (length p) al i c.
Definition sel_ok (al p : list nat) : Prop := NoDup al /\ forall k, In k al -> k < length p.

Lemma mapM_pyidx_nat n l e : (forall k, In k l -> k < n) ->
  mapM (fun z => match norm_axis n z with Some k => Ok k | None => Err e end) (map Z.of_nat l) = Ok l.
Proof.
  induction l as [|k l IH]; intros H; [reflexivity|]. cbn [map mapM]. unfold norm_axis at 1.
  rewrite pyidx_in by (apply H; left; reflexivity). cbn [bind]. rewrite IH by (intros j Hj; apply H; right; exact Hj). reflexivity.
Qed.

Lemma sum_site (t : nd K) al : lt_ok t -> sel_ok al (pdims t) ->
  exists u, nsum_py t (map (fun z => (z + 1)%Z) (map Z.of_nat al)) = Ok u /\
    site_lin rest_dims sel_dims merge_idx al t u.
Proof.
  intros Ht [Hd Hin]. pose proof (lt_ok_shp _ Ht) as Es. set (n := length (pdims t)) in *.
  destruct al as [|k0' al'].
  - exists t. split; [reflexivity|]. unfold site_lin, rest_dims, sel_dims, merge_idx.
    assert (E : freeaxes n [] = seq 0 n).
    { unfold freeaxes. clear. generalize 0. induction n as [|n IH]; intros m; [reflexivity|]. cbn. rewrite IH. reflexivity. }
    fold n. rewrite E. rewrite gather_seq0' by reflexivity.
    split; [split; [exact Ht|split; reflexivity]|]. split; [reflexivity|].
    intros a i b Ha Hb Hi. cbn [gather map msum]. f_equal.
    rewrite <- (fuse_unique n [] i) at 1; [|constructor|intros ? []|apply (inr_length _ _ Hi)].
    rewrite E. rewrite gather_seq0' by (apply (inr_length _ _ Hi)). reflexivity.
  - set (al := k0' :: al') in *.
    assert (EZ : map (fun z => (z + 1)%Z) (map Z.of_nat al) = map Z.of_nat (map S al)).
    { rewrite !map_map. apply map_ext. intros; lia. }
    exists (sum_axes t (map S al)).
    assert (EN : nsum_py t (map Z.of_nat (map S al)) = Ok (sum_axes t (map S al))).
    { unfold nsum_py. destruct (map Z.of_nat (map S al)) as [|z zs] eqn:E0; [discriminate|]. rewrite <- E0.
      rewrite mapM_pyidx_nat.
      - cbn [bind]. assert (N : nodupb (map S al) = true) by (apply nodupb_iff, NoDup_map_S; exact Hd). rewrite N. reflexivity.
      - intros k Hk. apply in_map_iff in Hk. destruct Hk as [j [<- Hj]]. rewrite (ndim_lt _ Ht). specialize (Hin _ Hj). fold n. lia. }
    rewrite EZ. split; [exact EN|].
    assert (E : shp (sum_axes t (map S al)) = ldim t :: rest_dims al (pdims t) ++ [rdim t]).
    { unfold sum_axes. rewrite shp_tab, (ndim_lt _ Ht), Es. apply gather_free_phys; auto. }
    assert (Ep := pdims_mk _ _ _ _ E). assert (El := ldim_mk _ _ _ E). assert (Er := rdim_mk _ _ _ _ E).
    split; [split; [eapply lt_ok_mk; [apply wf_tab|exact E]|split; assumption]|]. split; [exact Ep|].
    intros a i b Ha Hb Hi. unfold ent at 1, sum_axes. rewrite get_tab.
    2:{ pose proof E as E'. unfold sum_axes in E'. rewrite shp_tab in E'. rewrite E'. apply inr_cons; [exact Ha|]. apply inr_app; [exact Hi|apply inr_single; exact Hb]. }
    rewrite Es, gather_map_S, gather_prefix by exact Hin. apply msum_ext. intros c Hc.
    rewrite (ndim_lt _ Ht). fold n. rewrite scatter_left; auto.
    + rewrite (inr_length _ _ Hi). unfold rest_dims. rewrite gather_length. reflexivity.
    + rewrite (inr_length _ _ Hc), gather_length. reflexivity.
Qed.

(** Meaning of the argument [axes] of [sum]: the summed legs of each site. *)
Inductive sum_legs (shape : list (list nat)) : sumarg -> list (list nat) -> Prop :=
| SL_none : sum_legs shape SNone (map (fun p => seq 0 (length p)) shape)
| SL_one k : sum_legs shape (SOne (Z.of_nat k)) (map (fun _ => [k]) shape)
| SL_uniform l : sum_legs shape (SList (map (fun k => EInt (Z.of_nat k)) l)) (map (fun _ => l) shape)
| SL_sites z0 es als :
    Forall3 (fun e p al => match e with ENone => al = seq 0 (length p) | ESeq zs => zs = map Z.of_nat al | EInt _ => False end)
            (ESeq z0 :: es) shape als ->
    sum_legs shape (SList (ESeq z0 :: es)) als.

Lemma Forall3_len (X Y Z : Type) (R : X -> Y -> Z -> Prop) l m n : Forall3 R l m n -> length l = length m /\ length m = length n.
Proof. induction 1; cbn; lia. Qed.

Lemma sum_axes_resolve (x : ltens K) arg als : Forall lt_ok (lts x) -> sum_legs (mshape x) arg als ->
  sum_axes_per_site x arg = Ok (map (fun al => map (fun z => (z + 1)%Z) (map Z.of_nat al)) als) /\ length als = llen x.
Proof.
  intros Ho H. unfold sum_axes_per_site.
  assert (N : forall t : nd K, lt_ok t -> map Z.of_nat (seq 1 (Z.to_nat (Z.of_nat (ndim t) - 2))) =
             map (fun z => (z + 1)%Z) (map Z.of_nat (seq 0 (length (pdims t))))).
  { intros t Ht. rewrite (ndim_lt _ Ht). replace (Z.to_nat (Z.of_nat (S (S (length (pdims t)))) - 2)) with (length (pdims t)) by lia.
    rewrite <- seq_shift, !map_map. apply map_ext. intros; lia. }
  destruct H as [|k|l|z0 es als HF].
  - split; [|rewrite map_length; apply mshape_length]. unfold ndims, mshape. rewrite !map_map. rewrite <- mapM_map.
    rewrite mapM_map. rewrite (mapM_ok_map _ _ _ (fun n => map Z.of_nat (seq 1 (Z.to_nat n)))) by reflexivity.
    rewrite map_map. f_equal. apply map_ext_in. intros t Ht. apply N. rewrite Forall_forall in Ho. auto.
  - split; [|rewrite map_length; apply mshape_length]. f_equal. unfold mshape. rewrite !map_map. reflexivity.
  - split; [|rewrite map_length; apply mshape_length].
    assert (E : uniform_axes (map (fun k => EInt (Z.of_nat k)) l) = Ok (map (fun z => (z + 1)%Z) (map Z.of_nat l))).
    { unfold uniform_axes. clear. induction l as [|k l IH]; [reflexivity|]. cbn [map mapM bind]. rewrite IH. reflexivity. }
    assert (G : (do ax <- uniform_axes (map (fun k => EInt (Z.of_nat k)) l); Ok (map (fun _ : nd K => ax) (lts x)))
      = Ok (map (fun al => map (fun z => (z + 1)%Z) (map Z.of_nat al)) (map (fun _ => l) (mshape x)))).
    { rewrite E. cbn [bind]. unfold mshape. rewrite !map_map. reflexivity. }
    destruct l as [|k l]; exact G.
  - destruct (Forall3_len _ _ _ _ _ _ _ HF) as [L1 L2]. rewrite mshape_length in L1, L2. split; [|congruence].
    rewrite L1, Nat.eqb_refl. cbn [passert]. unfold mshape, ndims in *.
    remember (ESeq z0 :: es) as es' eqn:Ee. clear Ee L1 L2. unfold llen in *. revert Ho HF. generalize (lts x). clear x. intros ts Ho HF.
    revert ts Ho HF. revert als. induction es' as [|e es' IH]; intros als ts Ho HF.
    + inversion HF; subst. reflexivity.
    + destruct ts as [|t ts]; [inversion HF|]. inversion Ho; subst. inversion HF as [|? ? al ? ? als' He HF']; subst.
      cbn [map combine mapM fst snd]. rewrite (IH als' ts) by assumption. destruct e as [|z|zs]; [|contradiction|].
      * subst al. cbn [site_axes bind]. rewrite N by assumption. reflexivity.
      * subst zs. reflexivity.
Qed.

Theorem msum_spec (x : ltens K) arg als :
  mpa_ok x -> sum_legs (mshape x) arg als -> Forall2 sel_ok als (mshape x) ->
  exists z, mpa_ok z /\
    msum_mpa x arg = Ok (if list_eq_dec Nat.eq_dec (concat (mshape z)) [] then SumScalar (to_array z) else SumMpa z) /\
    mshape z = zip2 rest_dims als (mshape x) /\ ranks z = ranks x /\ canonical_form z = (0%Z, Z.of_nat (llen x)) /\
    forall js, Forall2 inr js (mshape z) ->
      amp (lts z) js 0 0 = msums (zip2 sel_dims als (mshape x)) (fun cs => amp (lts x) (zip4 merge_idx als (mshape x) js cs) 0 0).
Proof.
  intros [Hne Hb] HL HS. pose proof (bonds_ok _ _ _ Hb) as Ho.
  destruct (sum_axes_resolve x arg als Ho HL) as [E1 L1].
  assert (G : exists us, mapM (fun p => nsum_py (snd p) (fst p)) (combine (map (fun al => map (fun z => (z + 1)%Z) (map Z.of_nat al)) als) (lts x)) = Ok us /\
                         Forall3 (site_lin rest_dims sel_dims merge_idx) als (lts x) us).
  { clear -Ho HS L1. unfold llen, mshape in *. revert als HS L1. induction Ho as [|t ts Ht Ho IH]; intros als HS L1.
    - destruct als; [|discriminate]. exists []. split; [reflexivity|constructor].
    - destruct als as [|al als]; [discriminate|]. inversion HS; subst. injection L1 as L1.
      destruct (IH als) as [us [E F]]; auto. destruct (sum_site t al Ht) as [u [Eu Lu]]; [assumption|].
      exists (u :: us). split; [|constructor; assumption]. cbn [map combine mapM fst snd]. rewrite Eu. cbn [bind]. rewrite E. reflexivity. }
  destruct G as [us [E2 F]]. destruct (lin_chain _ _ _ _ _ _ _ _ F Hb) as [B [R [P [L A]]]].
  assert (Hne2 : us <> []) by (intros ->; destruct (lts x); [congruence|discriminate]).
  destruct (mpa_new_chain us Hne2 B) as [z [Ez [Hz [Lz [Cl Cr]]]]]. exists z. split; [exact Hz|].
  assert (Sz : mshape z = zip2 rest_dims als (mshape x)) by (unfold mshape; rewrite Lz; exact P).
  split.
  { unfold msum_mpa. rewrite E1. cbn [bind]. rewrite E2. cbn [bind]. rewrite Ez. cbn [bind].
    assert (Q : forall ts : list (nd K), Forall lt_ok ts ->
       (zsum (map (fun t => Z.of_nat (ndim t) - 2)%Z ts) =? 0)%Z = if list_eq_dec Nat.eq_dec (concat (map pdims ts)) [] then true else false).
    { intros ts Hts. assert (Q : zsum (map (fun t : nd K => Z.of_nat (ndim t) - 2)%Z ts) = Z.of_nat (length (concat (map pdims ts)))).
      { induction Hts as [|t ts Ht Hts IH]; [reflexivity|]. cbn [map zsum fold_right concat]. rewrite app_length. unfold zsum in IH. rewrite IH, (ndim_lt _ Ht). lia. }
      rewrite Q. destruct (list_eq_dec _ _ _) as [Ec|Ec]; [rewrite Ec; reflexivity|]. apply Z.eqb_neq.
      destruct (concat (map pdims ts)); [congruence|cbn; lia]. }
    unfold ndims. rewrite Q by (destruct Hz as [_ Hbz]; eapply bonds_ok; exact Hbz). fold (mshape z).
    destruct (list_eq_dec _ _ _); reflexivity. }
  split; [exact Sz|]. split.
  { unfold ranks. rewrite Lz. destruct us; [congruence|]. destruct (lts x); [congruence|]. cbn in *. congruence. }
  split; [unfold canonical_form, llen; rewrite Cl, Cr, L; reflexivity|].
  intros js Hj. rewrite Lz. rewrite A; auto. rewrite Sz in Hj. exact Hj.
Qed.

(** ** Fixing the index of one leg *)
Definition drop_dim (q : nat * nat) (p : list nat) : list nat := remove_at (fst q) p.
Definition no_dims (q : nat * nat) (p : list nat) : list nat := [].
Definition put_idx (q : nat * nat) (p i c : list nat) : list nat := insert_at (fst q) (snd q) i.

Lemma remove_at_length n (l : list nat) : n < length l -> length (remove_at n l) = length l - 1.
Proof. intros H. unfold remove_at. rewrite app_length, firstn_length, skipn_length. lia. Qed.
Lemma insert_at_length n v (l : list nat) : length (insert_at n v l) = S (length l).
Proof. unfold insert_at. rewrite app_length. cbn. rewrite firstn_length, skipn_length. lia. Qed.

Lemma remove_at_cons n x (l : list nat) : remove_at (S n) (x :: l) = x :: remove_at n l.
Proof. reflexivity. Qed.
Lemma remove_at_snoc n (l m : list nat) : n < length l -> remove_at n (l ++ m) = remove_at n l ++ m.
Proof.
  intros H. unfold remove_at. rewrite firstn_app, skipn_app. replace (n - length l) with 0 by lia. replace (S n - length l) with 0 by lia.
  change (firstn 0 m) with (@nil nat). change (skipn 0 m) with m. rewrite app_nil_r, <- app_assoc. reflexivity.
Qed.
Lemma insert_at_cons n v x (l : list nat) : insert_at (S n) v (x :: l) = x :: insert_at n v l.
Proof. reflexivity. Qed.
Lemma insert_at_snoc n v (l m : list nat) : n <= length l -> insert_at n v (l ++ m) = insert_at n v l ++ m.
Proof.
  intros H. unfold insert_at. rewrite firstn_app, skipn_app. replace (n - length l) with 0 by lia.
  change (firstn 0 m) with (@nil nat). change (skipn 0 m) with m. rewrite app_nil_r, <- app_assoc. reflexivity.
Qed.

Lemma insert_at_inr ax k p i : ax < length p -> k < nth ax p 0 -> inr i (remove_at ax p) -> inr (insert_at ax k i) p.
Proof.
  intros Ha Hk Hi. pose proof (split_nth _ ax p 0 Ha) as Ep. unfold remove_at in Hi. apply inr_app_inv in Hi.
  destruct Hi as [i1 [i2 [-> [H1 H2]]]].
  assert (L1 : length i1 = ax) by (rewrite (inr_length _ _ H1), firstn_length; lia).
  rewrite insert_at_app' by exact L1. rewrite Ep. apply inr_app; [exact H1|]. apply inr_cons; assumption.
Qed.

Lemma take_axis_lin (t : nd K) ax k : lt_ok t -> ax < length (pdims t) -> k < nth ax (pdims t) 0 ->
  site_lin drop_dim no_dims put_idx (ax, k) t (take_axis (S ax) k t).
Proof.
  intros Ht Ha Hk. pose proof (lt_ok_shp _ Ht) as Es. unfold take_axis.
  assert (E0 : remove_at (S ax) (shp t) = ldim t :: remove_at ax (pdims t) ++ [rdim t]).
  { rewrite Es, remove_at_cons, remove_at_snoc by exact Ha. reflexivity. }
  assert (E : shp (tab (remove_at (S ax) (shp t)) (fun i => get t (insert_at (S ax) k i))) = ldim t :: remove_at ax (pdims t) ++ [rdim t]) by (rewrite shp_tab; exact E0).
  assert (Ep := pdims_mk _ _ _ _ E). assert (El := ldim_mk _ _ _ E). assert (Er := rdim_mk _ _ _ _ E).
  split; [split; [eapply lt_ok_mk; [apply wf_tab|exact E]|split; assumption]|]. split; [exact Ep|].
  intros a i b Hla Hlb Hi. change (inr i (remove_at ax (pdims t))) in Hi. unfold no_dims, put_idx. cbn [msum fst snd]. unfold ent at 1.
  rewrite get_tab by (rewrite E0; apply inr_cons; [exact Hla|apply inr_app; [exact Hi|apply inr_single; exact Hlb]]).
  unfold ent. f_equal. assert (Li := inr_length _ _ Hi). rewrite remove_at_length in Li by exact Ha.
  rewrite insert_at_cons, insert_at_snoc by lia. reflexivity.
Qed.

Definition norm_idx (d : nat) (z : Z) : nat := match pyidx d z with Some k => k | None => 0 end.

(** [get]: the first leg of every site is fixed; negative indices count from the end. *)
Theorem mget_spec (x : ltens K) (idx : list Z) :
  mpa_ok x -> Forall2 (fun z p => match p with [] => False | d :: _ => (- Z.of_nat d <= z < Z.of_nat d)%Z end) idx (mshape x) ->
  exists z, mget x idx = Ok z /\ mpa_ok z /\ mshape z = map (@tl nat) (mshape x) /\ ranks z = ranks x /\
    forall js, Forall2 inr js (mshape z) ->
      amp (lts z) js 0 0 = amp (lts x) (zip3 (fun z p j => norm_idx (hd 0 p) z :: j) idx (mshape x) js) 0 0.
Proof.
  intros [Hne Hb] HI. pose proof (bonds_ok _ _ _ Hb) as Ho.
  assert (L0 := Forall2_len _ _ _ _ _ HI). rewrite mshape_length in L0.
  set (qs := zip2 (fun z p => (0, norm_idx (hd 0 p) z)) idx (mshape x)).
  assert (G : exists us, mapM (fun p => local_get (snd p) (fst p)) (combine idx (lts x)) = Ok us /\
                         Forall3 (site_lin drop_dim no_dims put_idx) qs (lts x) us).
  { unfold qs, mshape, llen in *. clear -Ho HI. revert idx HI. induction Ho as [|t ts Ht Ho IH]; intros idx HI.
    - inversion HI; subst. exists []. split; [reflexivity|constructor].
    - inversion HI as [|z ? idx' ? Hz HI']; subst. destruct (IH idx' HI') as [us [E F]].
      destruct (pdims t) as [|d p] eqn:Ep; [contradiction|].
      destruct (proj1 (pyidx_range d z) Hz) as [k Hk].
      assert (Hkd := pyidx_lt _ _ _ Hk).
      exists (take_axis 1 k t :: us). split.
      + cbn [combine mapM fst snd]. unfold local_get at 1. rewrite (ndim_lt _ Ht), Ep. cbn [length Nat.ltb Nat.leb].
        rewrite (lt_ok_shp _ Ht), Ep. cbn [nth app]. rewrite Hk. cbn [bind]. rewrite E. reflexivity.
      + cbn [map zip2]. rewrite Ep. cbn [zip2 hd]. unfold norm_idx at 1. rewrite Hk. constructor; [|exact F].
        apply take_axis_lin; [exact Ht|rewrite Ep; cbn; lia|rewrite Ep; exact Hkd]. }
  destruct G as [us [E2 F]]. destruct (lin_chain _ _ _ _ _ _ _ _ F Hb) as [B [R [P [L A]]]].
  assert (Hne2 : us <> []) by (intros ->; destruct (lts x); [congruence|discriminate]).
  destruct (mpa_new_chain us Hne2 B) as [z [Ez [Hz [Lz _]]]]. exists z.
  assert (Sz : mshape z = map (@tl nat) (mshape x)).
  { unfold mshape at 1. rewrite Lz, P. fold (mshape x). unfold qs. clear -HI. revert HI. generalize (mshape x). intros ps HI.
    induction HI as [|z p idx ps Hp HI IH]; [reflexivity|]. cbn [zip2 map]. rewrite IH. destruct p; [contradiction|]. reflexivity. }
  split; [unfold mget; rewrite L0, Nat.eqb_refl; cbn [passert]; rewrite E2; exact Ez|]. split; [exact Hz|]. split; [exact Sz|].
  split. { unfold ranks. rewrite Lz. destruct us; [congruence|]. destruct (lts x); [congruence|]. cbn in *. congruence. }
  intros js Hj. rewrite Lz, A; auto.
  2:{ fold (mshape x). unfold mshape at 1 in Hj. rewrite Lz, P in Hj. exact Hj. }
  fold (mshape x). unfold qs.
  assert (ZN : forall idx ps, zip2 no_dims (zip2 (fun z p => (0, norm_idx (hd 0 p) z)) idx ps) ps = map (fun _ => []) (zip2 (fun (_ : Z) (_ : list nat) => 0) idx ps)).
  { clear. induction idx as [|z idx IH]; intros [|p ps]; try reflexivity. cbn. rewrite IH. reflexivity. }
  rewrite ZN.
  assert (MN : forall (l : list nat) (f : list (list nat) -> K), msums (map (fun _ => []) l) f = f (map (fun _ => []) l)).
  { clear. induction l as [|n l IH]; intros f; [reflexivity|]. cbn [map msums msum]. rewrite IH. reflexivity. }
  rewrite MN. f_equal. rewrite Sz in Hj. clear -HI Hj. revert HI js Hj. generalize (mshape x). intros ps HI.
  induction HI as [|z p idx ps Hp HI IH]; intros js Hj; inversion Hj; subst; [reflexivity|].
  cbn [zip2 zip3 zip4 map]. rewrite IH by assumption. reflexivity.
Qed.

Theorem mget_length_error (x : ltens K) idx : length idx <> llen x -> mget x idx = Err AssertionError.
Proof. intros H. unfold mget. apply Nat.eqb_neq in H. rewrite H. reflexivity. Qed.

(** ** axis_iter *)
Lemma product_length (A : Type) (ls : list (list A)) : length (product ls) = size (map (@length A) ls).
Proof.
  induction ls as [|l ls IH]; [reflexivity|]. cbn [product map]. rewrite size_cons, <- IH. clear IH.
  induction l as [|x l IH2]; [reflexivity|]. cbn [flat_map length Nat.mul]. rewrite app_length, map_length, IH2. reflexivity.
Qed.

Lemma product_nth (A : Type) (ls : list (list A)) (d : list A) (e : A) ks : inr ks (map (@length A) ls) ->
  nth (ravel (map (@length A) ls) ks) (product ls) d = zip2 (fun k l => nth k l e) ks ls.
Proof.
  revert ks; induction ls as [|l ls IH]; intros ks Hk.
  - apply inr_nil_inv in Hk. subst. reflexivity.
  - cbn [map] in *. inversion Hk as [|k ? ks' ? Hk1 Hk2]; subst. cbn [ravel zip2 product].
    assert (HL := product_length A ls). assert (HR := ravel_lt _ _ Hk2). rewrite <- HL in *.
    rewrite <- (IH ks' Hk2). clear IH.
    set (m := ravel (map (@length A) ls) ks') in *. clearbody m. clear Hk Hk2.
    revert k Hk1. induction l as [|x l IHl]; intros k Hk1; [cbn in Hk1; lia|]. cbn [flat_map].
    destruct k as [|k].
    + cbn [Nat.mul Nat.add]. rewrite app_nth1 by (rewrite map_length; exact HR). 
      rewrite nth_indep with (d' := x :: d) by (rewrite map_length; exact HR). rewrite map_nth. reflexivity.
    + cbn in Hk1. rewrite app_nth2 by (rewrite map_length; nia). rewrite map_length.
      replace (S k * length (product ls) + m - length (product ls)) with (k * length (product ls) + m) by nia.
      rewrite IHl by lia. reflexivity.
Qed.

Lemma axis_slices_spec (t : nd K) ax : lt_ok t -> ax < length (pdims t) ->
  exists us, axis_slices ax t = Ok us /\ length us = nth ax (pdims t) 0 /\
    forall k, k < nth ax (pdims t) 0 -> site_lin drop_dim no_dims put_idx (ax, k) t (nth k us dummy).
Proof.
  intros Ht Ha. pose proof (lt_ok_shp _ Ht) as Es.
  assert (Hn : S ax < ndim t) by (rewrite (ndim_lt _ Ht); lia).
  assert (E0 : remove_at (S ax) (shp t) = ldim t :: remove_at ax (pdims t) ++ [rdim t]).
  { rewrite Es, remove_at_cons, remove_at_snoc by exact Ha. reflexivity. }
  assert (En : nth (S ax) (shp t) 0 = nth ax (pdims t) 0) by (rewrite Es; cbn [nth]; apply app_nth1; exact Ha).
  assert (ER : shp (rollaxis t (S ax) 0) = nth ax (pdims t) 0 :: ldim t :: remove_at ax (pdims t) ++ [rdim t]).
  { rewrite shp_rollaxis by exact Hn. rewrite E0, En. reflexivity. }
  unfold axis_slices. destruct (Nat.leb_spec (ndim t) (S ax)); [lia|]. rewrite ER. cbn [hd].
  eexists. split; [reflexivity|]. split; [rewrite map_length, seq_length; reflexivity|].
  intros k Hk. rewrite (map_nth_lt _ _ _ _ _ 0) by (rewrite seq_length; exact Hk). rewrite seq_nth by exact Hk. cbn [Nat.add].
  assert (E : shp (take_first k (rollaxis t (S ax) 0)) = ldim t :: remove_at ax (pdims t) ++ [rdim t]).
  { unfold take_first. rewrite shp_tab, ER. reflexivity. }
  assert (Ep := pdims_mk _ _ _ _ E). assert (El := ldim_mk _ _ _ E). assert (Er := rdim_mk _ _ _ _ E).
  split; [split; [eapply lt_ok_mk; [apply wf_tab|exact E]|split; assumption]|]. split; [exact Ep|].
  intros a i b Hla Hlb Hi. change (inr i (remove_at ax (pdims t))) in Hi. unfold no_dims, put_idx. cbn [msum fst snd]. unfold ent at 1, take_first.
  rewrite get_tab by (rewrite ER; cbn [tl]; apply inr_cons; [exact Hla|apply inr_app; [exact Hi|apply inr_single; exact Hlb]]).
  assert (Li := inr_length _ _ Hi). rewrite remove_at_length in Li by exact Ha.
  assert (HJ : inr (a :: insert_at ax k i ++ [b]) (shp t)).
  { rewrite Es. apply inr_cons; [exact Hla|]. apply inr_app; [apply insert_at_inr; assumption|apply inr_single; exact Hlb]. }
  pose proof (get_rollaxis t (S ax) 0 _ Hn HJ) as G. unfold ent. rewrite <- G. f_equal.
  cbn [roll_start Nat.ltb Nat.leb]. unfold insert_at at 1. cbn [firstn skipn app]. cbn [nth].
  rewrite app_nth1 by (rewrite insert_at_length; lia).
  assert (exists i1 i2, i = i1 ++ i2 /\ length i1 = ax) as [i1 [i2 [-> Hi1]]].
  { exists (firstn ax i), (skipn ax i). split; [symmetry; apply firstn_skipn|rewrite firstn_length; lia]. }
  rewrite insert_at_app' by exact Hi1. rewrite nth_mid' by exact Hi1. f_equal.
  rewrite remove_at_cons, remove_at_snoc by (rewrite app_length; cbn; lia).
  rewrite (remove_at_app' ax i1 k i2 Hi1). reflexivity.
Qed.

Theorem axis_iter_spec (x : ltens K) (axes : list nat) :
  mpa_ok x -> Forall2 (fun ax p => ax < length p) axes (mshape x) ->
  let ds := zip2 (fun ax p => nth ax p 0) axes (mshape x) in
  exists zs, axis_iter x axes = Ok zs /\ length zs = size ds /\
    forall ks, inr ks ds -> let z := nth (ravel ds ks) zs (mkLt [] 0 0) in
      mpa_ok z /\ mshape z = zip2 remove_at axes (mshape x) /\ ranks z = ranks x /\
      forall js, Forall2 inr js (mshape z) ->
        amp (lts z) js 0 0 = amp (lts x) (zip3 insert_at axes ks js) 0 0.
Proof.
  intros [Hne Hb] HA ds. pose proof (bonds_ok _ _ _ Hb) as Ho.
  assert (L0 := Forall2_len _ _ _ _ _ HA). rewrite mshape_length in L0.
  assert (G : exists sl, mapM (fun p => axis_slices (fst p) (snd p)) (combine axes (lts x)) = Ok sl /\
     map (@length (nd K)) sl = ds /\
     forall ks, inr ks ds -> Forall3 (site_lin drop_dim no_dims put_idx) (combine axes ks) (lts x) (zip2 (fun k l => nth k l dummy) ks sl)).
  { unfold ds, mshape in *. clear -Ho HA. revert axes HA. induction Ho as [|t ts Ht Ho IH]; intros axes HA.
    - inversion HA; subst. exists []. split; [reflexivity|]. split; [reflexivity|]. intros ks Hk. apply inr_nil_inv in Hk. subst. constructor.
    - inversion HA as [|ax ? axes' ? Ha HA']; subst. destruct (IH axes' HA') as [sl [E [D F]]].
      destruct (axis_slices_spec t ax Ht Ha) as [us [Eu [Lu Su]]]. exists (us :: sl).
      split; [cbn [combine mapM fst snd]; rewrite Eu; cbn [bind]; rewrite E; reflexivity|].
      split; [cbn [map zip2]; congruence|]. intros ks Hk. cbn [map zip2] in Hk. inversion Hk; subst. cbn [combine zip2]. constructor; auto. }
  destruct G as [sl [E [D F]]].
  assert (W : forall ks, inr ks ds -> exists z, mpa_new (zip2 (fun k l => nth k l dummy) ks sl) = Ok z /\ mpa_ok z /\
      mshape z = zip2 remove_at axes (mshape x) /\ ranks z = ranks x /\
      forall js, Forall2 inr js (mshape z) -> amp (lts z) js 0 0 = amp (lts x) (zip3 insert_at axes ks js) 0 0).
  { intros ks Hk. specialize (F ks Hk). destruct (lin_chain _ _ _ _ _ _ _ _ F Hb) as [B [R [P [L A]]]].
    set (us := zip2 (fun k l => nth k l dummy) ks sl) in *.
    assert (Hne2 : us <> []) by (intros E0; rewrite E0 in L; destruct (lts x); [congruence|discriminate]).
    destruct (mpa_new_chain us Hne2 B) as [z [Ez [Hz [Lz _]]]]. exists z. split; [exact Ez|]. split; [exact Hz|].
    assert (Lk : length ks = length axes).
    { rewrite (inr_length _ _ Hk). unfold ds. apply zip2_length. rewrite mshape_length. exact L0. }
    assert (Sz : mshape z = zip2 remove_at axes (mshape x)).
    { unfold mshape at 1. rewrite Lz, P. fold (mshape x). clear -Lk. revert ks Lk. generalize (mshape x).
      induction axes as [|a axes IH]; intros ps [|k ks] Lk; try discriminate; [reflexivity|]. destruct ps as [|p ps]; [reflexivity|].
      cbn [combine zip2]. rewrite IH by (injection Lk as Lk; exact Lk). reflexivity. }
    split; [exact Sz|].
    split. { unfold ranks. rewrite Lz. destruct us; [congruence|]. destruct (lts x); [congruence|]. cbn in *. congruence. }
    intros js Hj. rewrite Lz, A; auto.
    2:{ fold (mshape x). unfold mshape at 1 in Hj. rewrite Lz, P in Hj. exact Hj. }
    fold (mshape x).
    assert (ZN : forall (qs : list (nat * nat)) ps, zip2 no_dims qs ps = map (fun _ => []) (zip2 (fun (_ : nat * nat) (_ : list nat) => 0) qs ps)).
    { clear. induction qs as [|z qs IH]; intros [|p ps]; try reflexivity. cbn. rewrite IH. reflexivity. }
    rewrite ZN.
    assert (MN : forall (l : list nat) (f : list (list nat) -> K), msums (map (fun _ => []) l) f = f (map (fun _ => []) l)).
    { clear. induction l as [|n l IH]; intros f; [reflexivity|]. cbn [map msums msum]. rewrite IH. reflexivity. }
    rewrite MN. f_equal. rewrite Sz in Hj. clear -Lk L0 Hj. unfold llen in L0.
    assert (L1 : length axes = length (mshape x)) by (rewrite mshape_length; exact L0). clear L0. revert ks Lk js Hj L1. generalize (mshape x).
    induction axes as [|a axes IH]; intros ps [|k ks] Lk js Hj L1; try discriminate; [reflexivity|]. destruct ps as [|p ps]; [discriminate|].
    cbn [zip2] in Hj. inversion Hj; subst. cbn [combine zip2 zip3 zip4 map]. rewrite IH by (try assumption; cbn in *; lia). reflexivity. }
  assert (HQ : exists zs, mapM mpa_new (product sl) = Ok zs).
  { assert (HA2 : forall ts, In ts (product sl) -> exists z, mpa_new ts = Ok z).
    { intros ts Hin. apply In_nth with (d := []) in Hin. destruct Hin as [n [Hn En]].
      rewrite product_length, D in Hn. destruct (W (unravel ds n)) as [z [Ez _]]; [apply unravel_inr; exact Hn|].
      exists z. rewrite <- Ez, <- En. f_equal. rewrite <- (ravel_unravel ds n Hn) at 1.
      rewrite <- D. apply product_nth. rewrite D. apply unravel_inr; exact Hn. }
    clear -HA2. induction (product sl) as [|ts l IH]; [eexists; reflexivity|].
    destruct (HA2 ts (or_introl eq_refl)) as [z Ez]. destruct IH as [zs Ezs]; [intros t Ht; apply HA2; right; exact Ht|].
    exists (z :: zs). cbn [mapM]. rewrite Ez. cbn [bind]. rewrite Ezs. reflexivity. }
  destruct HQ as [zs Ezs]. exists zs. split; [unfold axis_iter; rewrite E; cbn [bind]; exact Ezs|].
  pose proof (mapM_inv _ _ _ _ _ Ezs) as FI. assert (LZ := Forall2_len _ _ _ _ _ FI). rewrite product_length, D in LZ.
  split; [symmetry; exact LZ|]. intros ks Hk z. destruct (W ks Hk) as [z' [Ez' H']].
  assert (z' = z) as <-.
  { assert (Hn := ravel_lt _ _ Hk).
    assert (GN : mpa_new (nth (ravel ds ks) (product sl) []) = Ok (nth (ravel ds ks) zs (mkLt [] 0 0))).
    { assert (Hn2 : ravel ds ks < length (product sl)) by (rewrite product_length, D; exact Hn).
      clear -FI Hn2. revert Hn2. generalize (ravel ds ks). induction FI as [|t z ts zs H F IH]; intros n Hn; [cbn in Hn; lia|].
      destruct n; [exact H|]. cbn [nth]. apply IH. cbn in Hn; lia. }
    rewrite <- D in GN at 1. rewrite (product_nth _ sl [] dummy) in GN by (rewrite D; exact Hk). rewrite Ez' in GN. injection GN as ->. reflexivity. }
  exact H'.
Qed.
End Select.
