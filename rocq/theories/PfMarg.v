(** Marginals of a chain with one leg per site, and fixing the indices of the first sites. *)
From Verif Require Export Sampling PfPovmArr.
Open Scope nat_scope.

Section Marg.
Context {K : StarRing}.
Add Ring Kr : (k_ring K).

(** ** [get] with indices and slices *)
Definition sl_dim (q : option nat) (p : list nat) : list nat := match q with Some _ => tl p | None => p end.
Definition sl_no (q : option nat) (p : list nat) : list nat := [].
Definition sl_idx (q : option nat) (p i c : list nat) : list nat := match q with Some k => k :: i | None => i end.
Definition sl_ok (q : option nat) (p : list nat) : Prop := match p, q with [], _ => False | d :: _, Some k => k < d | _ :: _, None => True end.

Theorem mget_s_spec (x : ltens K) (qs : list (option nat)) : mpa_ok x -> Forall2 sl_ok qs (mshape x) ->
  exists z, mget_s x (map (option_map Z.of_nat) qs) = Ok z /\ mpa_ok z /\ mshape z = zip2 sl_dim qs (mshape x) /\
    forall js, Forall2 inr js (mshape z) -> amp (lts z) js 0 0 = amp (lts x) (zip2 (fun q i => sl_idx q [] i []) qs js) 0 0.
Proof.
  intros [Hne Hb] HI. pose proof (bonds_ok _ _ _ Hb) as Ho.
  assert (L0 := Forall2_len _ _ _ _ _ HI). rewrite mshape_length in L0.
  assert (G : exists us, mapM (fun p => local_get_s (snd p) (fst p)) (combine (map (option_map Z.of_nat) qs) (lts x)) = Ok us /\
                         Forall3 (site_lin sl_dim sl_no sl_idx) qs (lts x) us).
  { unfold mshape, llen in *. clear -Ho HI. revert qs HI. induction Ho as [|t ts Ht Ho IH]; intros qs HI.
    - inversion HI; subst. exists []. split; [reflexivity|constructor].
    - inversion HI as [|q ? qs' ? Hq HI']; subst. destruct (IH qs' HI') as [us [E F]].
      destruct (pdims t) as [|d p] eqn:Ep; [destruct q; contradiction|].
      destruct q as [k|].
      + cbn in Hq. exists (take_axis 1 k t :: us). split.
        * cbn [map option_map combine mapM fst snd local_get_s]. unfold local_get at 1. rewrite (ndim_lt _ Ht), Ep. cbn [length Nat.ltb Nat.leb].
          rewrite (lt_ok_shp _ Ht), Ep. cbn [nth app]. rewrite pyidx_in by exact Hq. cbn [bind]. rewrite E. reflexivity.
        * constructor; [|exact F]. destruct (take_axis_lin t 0 k Ht ltac:(rewrite Ep; cbn; lia) ltac:(rewrite Ep; exact Hq)) as (S1 & S2 & S3).
          assert (Et : drop_dim (0, k) (pdims t) = sl_dim (Some k) (pdims t)) by (rewrite Ep; reflexivity).
          split; [exact S1|]. split; [rewrite <- Et; exact S2|].
          intros a i b Ha Hlb Hi. rewrite S3; [|exact Ha|exact Hlb|rewrite Et; exact Hi]. reflexivity.
      + exists (t :: us). split.
        * cbn [map option_map combine mapM fst snd local_get_s]. rewrite (ndim_lt _ Ht), Ep. cbn [length Nat.ltb Nat.leb bind]. rewrite E. reflexivity.
        * constructor; [|exact F]. split; [split; [exact Ht|split; reflexivity]|]. split; [reflexivity|]. intros a i b _ _ _. reflexivity. }
  destruct G as [us [E2 F]]. destruct (lin_chain _ _ _ _ _ _ _ _ F Hb) as [B [R [P [L A]]]].
  assert (Hne2 : us <> []) by (intros ->; destruct (lts x); [congruence|discriminate]).
  destruct (mpa_new_chain us Hne2 B) as [z [Ez [Hz [Lz _]]]]. exists z.
  assert (Sz : mshape z = zip2 sl_dim qs (mshape x)) by (unfold mshape at 1; rewrite Lz; exact P).
  split; [unfold mget_s; rewrite map_length, L0, Nat.eqb_refl; cbn [passert]; rewrite E2; exact Ez|]. split; [exact Hz|]. split; [exact Sz|].
  intros js Hj. rewrite Lz, A; auto.
  2:{ fold (mshape x). unfold mshape at 1 in Hj. rewrite Lz, P in Hj. exact Hj. }
  fold (mshape x).
  assert (MN : forall (qs : list (option nat)) ps (f : list (list nat) -> K), msums (zip2 sl_no qs ps) f = f (zip2 sl_no qs ps)).
  { clear. induction qs as [|q qs IH]; intros [|p ps] f; try reflexivity. cbn [zip2 msums]. unfold sl_no at 1. cbn [msum]. apply (IH ps (fun c => f ([] :: c))). }
  rewrite MN. f_equal. rewrite Sz in Hj. clear -HI Hj. revert HI js Hj. generalize (mshape x). intros ps HI.
  induction HI as [|q p qs ps Hp HI IH]; intros js Hj; inversion Hj; subst; [reflexivity|].
  cbn [zip2 zip4]. rewrite IH by assumption. reflexivity.
Qed.

Lemma entry_mp (x : ltens K) is : mpa_ok x -> Forall2 inr is (mshape x) -> entry x is = amp (lts x) is 0 0.
Proof. intros Hx Hi. apply entry_amp; assumption. Qed.

Definition dr (o : list nat) (n : nat) : list (option nat) := map (@Some nat) o ++ repeat None n.
Lemma dr_ok o d1 d2 : inr o d1 -> Forall2 sl_ok (dr o (length d2)) (singles (d1 ++ d2)).
Proof.
  intros H. unfold dr. induction H as [|i d o d1 Hi H IH]; cbn.
  - induction d2; cbn; [constructor|]. constructor; [exact I|assumption].
  - constructor; [exact Hi|exact IH].
Qed.
Lemma dr_shape o d1 d2 : length o = length d1 -> zip2 sl_dim (dr o (length d2)) (singles (d1 ++ d2)) = map (fun _ => []) d1 ++ singles d2.
Proof.
  unfold dr. revert o. induction d1 as [|d d1 IH]; intros [|i o] L; try discriminate.
  - cbn [map app]. induction d2 as [|e d2 IH2]; [reflexivity|]. cbn [length repeat singles map zip2]. cbn [map app] in IH2. unfold singles in IH2. rewrite IH2. reflexivity.
  - cbn [map app zip2 singles]. cbn in L. specialize (IH o ltac:(lia)). unfold singles in IH. rewrite IH. reflexivity.
Qed.
Lemma dr_idx o js : zip2 (fun q i => sl_idx q [] i []) (dr o (length js)) (map (fun _ => []) o ++ singles js) = singles (o ++ js).
Proof.
  unfold dr. induction o as [|i o IH]; cbn [map app].
  - induction js as [|j js IHj]; [reflexivity|]. cbn [length repeat singles map zip2]. cbn in IHj. unfold singles in IHj. rewrite IHj. reflexivity.
  - cbn [zip2]. rewrite IH. reflexivity.
Qed.
Lemma nils_valid (o : list nat) d : length o = length d -> Forall2 inr (map (fun _ => []) o : list (list nat)) (map (fun _ : nat => []) d).
Proof. revert d. induction o as [|i o IH]; intros [|e d] L; try discriminate; [constructor|]. cbn. constructor; [constructor|]. apply IH. cbn in L. lia. Qed.

(** The array of the remaining sites when the first ones are fixed *)
Theorem fixed_array (p : ltens K) d1 d2 o : mpa_ok p -> mshape p = singles (d1 ++ d2) -> inr o d1 ->
  exists q q', mget_s p (map (fun k => Some (Z.of_nat k)) o ++ repeat None (length d2)) = Ok q /\ prune q false = Ok q' /\
    ndwf (to_array q') /\ shp (to_array q') = d2 /\ forall j, inr j d2 -> get (to_array q') j = entry p (singles (o ++ j)).
Proof.
  intros Hp Sp Ho. assert (Lo := inr_length _ _ Ho).
  destruct (mget_s_spec p (dr o (length d2)) Hp ltac:(rewrite Sp; apply dr_ok; exact Ho)) as (q & Eq & Hq & Sq & Aq).
  rewrite Sp, dr_shape in Sq by exact Lo.
  destruct (prune_plain_spec q Hq) as (q' & Eq' & Hq' & _ & _ & Tq). exists q, q'.
  split. { rewrite <- Eq. f_equal. unfold dr. rewrite map_app, map_map. f_equal. rewrite map_rep. reflexivity. }
  split; [exact Eq'|]. rewrite Tq. split; [apply wf_to_array|].
  assert (Sh : shp (to_array q) = d2).
  { rewrite shp_to_array, Sq, concat_app, concat_singles by exact Hq. clear. induction d1; [reflexivity|]. assumption. }
  split; [exact Sh|]. intros j Hj. assert (Lj := inr_length _ _ Hj).
  assert (V : Forall2 inr (map (fun _ => []) o ++ singles j) (mshape q)).
  { rewrite Sq. apply Forall2_app; [apply nils_valid; exact Lo|apply singles_valid; exact Hj]. }
  assert (E1 : get (to_array q) j = entry q (map (fun _ => []) o ++ singles j)).
  { unfold entry. f_equal. rewrite concat_app, concat_singles. clear. induction o; [reflexivity|]. assumption. }
  rewrite E1, entry_mp, Aq by assumption. rewrite <- Lj, dr_idx. symmetry. apply entry_mp; [exact Hp|]. rewrite Sp. apply singles_valid. apply inr_app; assumption.
Qed.

(** ** Sums over the last site and over all sites *)
Lemma no_legs_dec (ps : list (list nat)) : {concat ps = []} + {concat ps <> []}.
Proof. apply list_eq_dec. exact Nat.eq_dec. Qed.
Definition last_only (n : nat) : list (list nat) := repeat [] n ++ [[0]].
Lemma last_legs ds d : sum_legs (singles (ds ++ [d])) (SList (repeat (ESeq []) (length ds) ++ [ESeq [0%Z]])) (last_only (length ds)).
Proof.
  assert (G : Forall3 (fun e (p al : list nat) => match e with ENone => al = seq 0 (length p) | ESeq zs => zs = map Z.of_nat al | EInt _ => False end)
    (repeat (ESeq []) (length ds) ++ [ESeq [0%Z]]) (singles (ds ++ [d])) (last_only (length ds))).
  { unfold last_only. induction ds as [|e ds IH]; cbn; [constructor; [reflexivity|constructor]|]. constructor; [reflexivity|exact IH]. }
  destruct ds; exact (SL_sites _ _ _ _ G).
Qed.
Lemma last_rest ds d : zip2 rest_dims (last_only (length ds)) (singles (ds ++ [d])) = singles ds ++ [[]].
Proof. unfold last_only. induction ds as [|e ds IH]; [reflexivity|]. cbn [length repeat app singles map zip2]. unfold singles in IH. rewrite IH. reflexivity. Qed.
Lemma last_sel ds d : zip2 sel_dims (last_only (length ds)) (singles (ds ++ [d])) = map (fun _ => []) ds ++ [[d]].
Proof. unfold last_only. induction ds as [|e ds IH]; [reflexivity|]. cbn [length repeat app singles map zip2]. unfold singles in IH. rewrite IH. reflexivity. Qed.
Lemma last_merge ds d : forall is c, length is = length ds ->
  zip4 merge_idx (last_only (length ds)) (singles (ds ++ [d])) (singles is ++ [[]]) (map (fun _ => []) ds ++ [[c]]) = singles (is ++ [c]).
Proof.
  unfold last_only. induction ds as [|e ds IH]; intros [|i is] c L; try discriminate; [reflexivity|].
  cbn [length repeat app singles map zip4]. unfold singles in IH. rewrite IH by (cbn in L; lia). reflexivity.
Qed.
Lemma msums_last (ds : list nat) d (f : list (list nat) -> K) : msums (map (fun _ => []) ds ++ [[d]]) f = bigsum d (fun c => f (map (fun _ => []) ds ++ [[c]])).
Proof.
  revert f. induction ds as [|e ds IH]; intros f; [reflexivity|]. cbn [map app msums msum]. apply (IH (fun c => f ([] :: c))).
Qed.
Lemma last_ok ds d : Forall2 sel_ok (last_only (length ds)) (singles (ds ++ [d])).
Proof.
  unfold last_only. induction ds as [|e ds IH]; cbn.
  - constructor; [|constructor]. split; [repeat constructor; intros []|]. intros k [<-|[]]. cbn. lia.
  - constructor; [|exact IH]. split; [constructor|intros k []].
Qed.

(** What a marginal on [n] sites is *)
Definition is_marg (z : ltens K) (ds : list nat) (k : nat) (m : ltens K) : Prop :=
  mpa_ok m /\ mshape m = singles (firstn k ds) /\
  forall is, inr is (firstn k ds) -> entry m (singles is) = msum (skipn k ds) (fun r => entry z (singles (is ++ r))).

Lemma marg_step_mpa (p : ltens K) ds d : mpa_ok p -> mshape p = singles (ds ++ [d]) -> ds <> [] ->
  exists z, marg_step p (length ds) = Ok (SumMpa z) /\ mpa_ok z /\ mshape z = singles ds /\
    forall is, inr is ds -> entry z (singles is) = bigsum d (fun c => entry p (singles (is ++ [c]))).
Proof.
  intros Hp Sp Hd.
  destruct (msum_spec p _ _ Hp ltac:(rewrite Sp; apply last_legs) ltac:(rewrite Sp; apply last_ok)) as (z & Hz & Ez & Sz & _ & _ & Az).
  rewrite Sp, last_rest in Sz.
  destruct (prune_plain_spec z Hz) as (q & Eq & Hq & Sq & _ & Tq).
  assert (SQ : mshape q = singles ds).
  { rewrite Sq, Sz. unfold pruned. rewrite filter_app. cbn [filter has_legs]. 
    replace (filter has_legs (singles ds)) with (singles ds). 2:{ clear. induction ds; [reflexivity|]. cbn. f_equal. assumption. }
    cbn. rewrite app_nil_r. destruct ds; [congruence|reflexivity]. }
  exists q. split.
  { unfold marg_step. rewrite Ez. cbn [bind].
    destruct (list_eq_dec Nat.eq_dec (concat (mshape z)) []) as [C|C].
    { exfalso. rewrite Sz in C. destruct ds; [congruence|discriminate]. }
    destruct ds as [|e ds]; [congruence|]. cbn [length Nat.ltb Nat.leb]. rewrite Eq. reflexivity. }
  split; [exact Hq|]. split; [exact SQ|].
  intros is Hi. unfold entry at 1. rewrite Tq.
  assert (V : Forall2 inr (singles is ++ [[]]) (mshape z)).
  { rewrite Sz. apply Forall2_app; [apply singles_valid; exact Hi|]. constructor; [constructor|constructor]. }
  replace (concat (singles is)) with (concat (singles is ++ [[]])) by (rewrite concat_app; cbn; rewrite app_nil_r; reflexivity).
  change (entry z (singles is ++ [[]]) = bigsum d (fun c => entry p (singles (is ++ [c])))).
  rewrite entry_mp by assumption. rewrite Az by exact V. rewrite Sp, last_sel, msums_last. apply bigsum_ext. intros c Hc.
  rewrite last_merge by (apply inr_length; exact Hi). symmetry. apply entry_mp; [exact Hp|]. rewrite Sp. apply singles_valid.
  apply inr_app; [exact Hi|apply inr_single; exact Hc].
Qed.
Lemma marg_step_scalar (p : ltens K) d : mpa_ok p -> mshape p = singles [d] ->
  exists a, marg_step p 0 = Ok (SumScalar a) /\ get a [] = bigsum d (fun c => entry p (singles [c])).
Proof.
  intros Hp Sp.
  destruct (msum_spec p _ _ Hp ltac:(rewrite Sp; apply (last_legs [] d)) ltac:(rewrite Sp; apply (last_ok [] d))) as (z & Hz & Ez & Sz & _ & _ & Az).
  rewrite Sp in Sz. change (mshape z = [[]]) in Sz.
  exists (to_array z). split.
  { unfold marg_step. change (repeat (ESeq []) 0 ++ [ESeq [0%Z]]) with (repeat (ESeq []) (length (@nil nat)) ++ [ESeq [0%Z]]). rewrite Ez. cbn [bind]. rewrite Sz. reflexivity. }
  change (get (to_array z) []) with (entry z [[]]). assert (V : Forall2 inr [[]] (mshape z)) by (rewrite Sz; constructor; [constructor|constructor]).
  rewrite entry_mp, Az by assumption. rewrite Sp. change (zip2 sel_dims (last_only (length (@nil nat))) (singles [d])) with [[d]]. cbn [msums msum]. apply bigsum_ext. intros c Hc.
  change (zip4 merge_idx (last_only (length (@nil nat))) (singles [d]) [[]] [[c]]) with (singles [c]). symmetry. apply entry_mp; [exact Hp|]. rewrite Sp. apply (singles_valid [c] [d]). apply inr_single. exact Hc.
Qed.

Theorem marginals_spec n : forall (p : ltens K) ds, mpa_ok p -> mshape p = singles ds -> length ds = n -> 0 < n ->
  exists ms a, marginals n p = Ok (ms, SumScalar a) /\ length ms = n /\ List.last ms (mkLt [] 0 0) = p /\
    (forall k, k < n -> is_marg p ds (S k) (nth k ms (mkLt [] 0 0))) /\
    get a [] = msum ds (fun is => entry p (singles is)).
Proof.
  induction n as [|n IH]; intros p ds Hp Sp L Hn; [lia|].
  destruct (exists_last (l:=ds) ltac:(intros ->; discriminate)) as (ds' & d & ->). rewrite app_length in L. cbn in L.
  assert (L' : length ds' = n) by lia. clear L. cbn [marginals].
  assert (Top : is_marg p (ds' ++ [d]) (S n) p).
  { assert (E1 : firstn (S n) (ds' ++ [d]) = ds' ++ [d]) by (apply firstn_all2; rewrite app_length; cbn; lia).
    assert (E2 : skipn (S n) (ds' ++ [d]) = []) by (apply skipn_all2; rewrite app_length; cbn; lia).
    split; [exact Hp|]. rewrite E1, E2. split; [exact Sp|]. intros is _. cbn [msum]. rewrite app_nil_r. reflexivity. }
  destruct (Nat.eq_dec n 0) as [->|Hn0].
  - destruct ds'; [|discriminate]. destruct (marg_step_scalar p d Hp Sp) as (a & Ea & Ga). rewrite Ea. cbn [bind]. exists [p], a.
    split; [reflexivity|]. split; [reflexivity|]. split; [reflexivity|]. split.
    + intros k Hk. replace k with 0 by lia. cbn [nth]. exact Top.
    + rewrite Ga. cbn [app msum]. reflexivity.
  - destruct (marg_step_mpa p ds' d Hp Sp ltac:(intros ->; cbn in L'; lia)) as (z & Ez & Hz & Sz & Az). rewrite L' in Ez. rewrite Ez. cbn [bind].
    destruct (IH z ds' Hz Sz L' ltac:(lia)) as (ms & a & Em & Lm & _ & M & Ga). destruct n as [|n']; [lia|]. rewrite Em. cbn [bind fst snd].
    exists (ms ++ [p]), a. split; [reflexivity|]. split; [rewrite app_length; cbn; lia|]. split; [apply last_last|]. split.
    + intros k Hk. destruct (Nat.eq_dec k (S n')) as [->|].
      * rewrite app_nth2 by lia. rewrite Lm, Nat.sub_diag. exact Top.
      * rewrite app_nth1 by lia. destruct (M k ltac:(lia)) as (M1 & M2 & M3). split; [exact M1|].
        assert (E1 : firstn (S k) (ds' ++ [d]) = firstn (S k) ds') by (rewrite firstn_app; replace (S k - length ds') with 0 by lia; apply app_nil_r).
        assert (E2 : skipn (S k) (ds' ++ [d]) = skipn (S k) ds' ++ [d]) by (rewrite skipn_app; replace (S k - length ds') with 0 by lia; reflexivity).
        rewrite E1, E2. split; [exact M2|]. intros is Hi. rewrite M3 by exact Hi. rewrite msum_app. apply msum_ext. intros r Hr. cbn [msum].
        rewrite Az by (rewrite <- (firstn_skipn (S k) ds'); apply inr_app; assumption). apply bigsum_ext. intros c Hc. rewrite app_assoc. reflexivity.
    + rewrite Ga, msum_app. apply msum_ext. intros is Hi. cbn [msum]. apply Az. exact Hi.
Qed.

Theorem sum_all (p : ltens K) ds : mpa_ok p -> mshape p = singles ds ->
  exists a, msum_mpa p SNone = Ok (SumScalar a) /\ get a [] = msum ds (fun is => entry p (singles is)).
Proof.
  intros Hp Sp.
  destruct (msum_spec p _ _ Hp (SL_none (mshape p))) as (z & Hz & Ez & Sz & _ & _ & Az).
  { rewrite Sp. clear. induction ds as [|d ds IH]; [constructor|]. cbn. constructor; [|exact IH]. split; [repeat constructor; intros []|]. intros k [<-|[]]. cbn. lia. }
  assert (S1 : mshape z = map (fun _ => []) ds). { rewrite Sz, Sp. clear. induction ds as [|d ds IH]; [reflexivity|]. cbn [singles map zip2]. unfold singles in IH. rewrite IH. reflexivity. }
  exists (to_array z). assert (C : concat (mshape z) = []) by (rewrite S1; clear; induction ds; [reflexivity|assumption]).
  split. { rewrite Ez. destruct (list_eq_dec Nat.eq_dec (concat (mshape z)) []); [reflexivity|contradiction]. }
  replace (get (to_array z) []) with (entry z (map (fun _ => []) ds)). 2:{ unfold entry. f_equal. rewrite <- S1. exact C. }
  assert (V : Forall2 inr (map (fun _ => []) ds) (mshape z)) by (rewrite S1; apply nils_valid; reflexivity).
  rewrite entry_mp, Az by assumption. rewrite Sp.
  assert (G : forall ds (f : list (list nat) -> K), msums (zip2 sel_dims (map (fun p => seq 0 (length p)) (singles ds)) (singles ds))
    (fun cs => f (zip4 merge_idx (map (fun p => seq 0 (length p)) (singles ds)) (singles ds) (map (fun _ => []) ds) cs)) = msum ds (fun is => f (singles is))).
  { clear. induction ds as [|d ds IH]; intros f; [reflexivity|]. cbn [singles map zip2 msums msum length seq]. change (sel_dims [0] [d]) with [d]. cbn [msum].
    apply bigsum_ext. intros c _. cbn [zip4]. change (merge_idx [0] [d] [] [c]) with [c]. apply (IH (fun l => f ([c] :: l))). }
  rewrite (G ds (fun l => amp (lts p) l 0 0)). apply msum_ext. intros is Hi. symmetry. apply entry_mp; [exact Hp|]. rewrite Sp. apply singles_valid. exact Hi.
Qed.
End Marg.
