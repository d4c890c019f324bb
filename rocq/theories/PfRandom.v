(** Facts about the random factories of factory.py, for every stream of draws. *)
From Verif Require Export PfFactory.
Open Scope nat_scope.

Section Rand.
Context {K : StarRing}.
Add Ring Kr : (k_ring K).
Variable qr : nd K -> res (nd K * nd K).
Variable sqrt_ inv : K -> K.
Hypothesis Hqr : qr_sound qr.

(** ** Normalisation *)
Definition norm_factor (x : ltens K) : K := inv (sqrt_ (norm2_of x)).
Lemma norm2_scale (x z : ltens K) c : mshape z = mshape x -> (forall is, valid_idx is (mshape x) -> entry z is = (c * entry x is)%K) ->
  norm2_of z = (kconj c * c * norm2_of x)%K.
Proof.
  intros Sz Ez. unfold norm2_of, inner_of. rewrite Sz, <- msums_mul_l. apply msums_ext. intros is Hi. rewrite Ez by exact Hi. rewrite (kconj_mul K). ring.
Qed.
Theorem normalize_spec (x : ltens K) : mpa_pos x -> cform_ok x -> canon_true x ->
  outc (qr_fails qr) (normalize qr sqrt_ inv x) (fun z => mpa_pos z /\ mshape z = mshape x /\ ranks z = ranks x /\ cform_ok z /\ canon_true z /\
    (cform_lt x -> canonical_form z = canonical_form x) /\
    (forall is, valid_idx is (mshape x) -> entry z is = (norm_factor x * entry x is)%K) /\
    ((kconj (norm_factor x) * norm_factor x * norm2_of x)%K = k1 -> norm2_of z = k1)).
Proof.
  intros Hx Hc Ht. unfold normalize. rewrite (mpa_copy_id x (proj1 Hx) Hc). cbn [bind].
  eapply outc_bind; [apply (norm_dense qr Hqr x Hx Hc Ht)|]. intros [v w] (Ev & _). cbn [fst snd] in *. subst v.
  apply (outc_weaken (qr_fails qr) (qr_fails qr) _ (fun z => mitruediv x (norm_factor x) = Ok z)); [|auto|].
  - destruct (mimul_spec x (norm_factor x) (proj1 Hx) Hc) as (z & Ez & _). left. exists z. split; exact Ez.
  - intros z Ez. destruct (mimul_spec x (norm_factor x) (proj1 Hx) Hc) as (z' & Ez' & Hz & Sz & Rz & Cz & _ & Tz & Fz & Az).
    unfold mitruediv in Ez. rewrite Ez in Ez'. injection Ez' as <-.
    assert (En : forall is, valid_idx is (mshape x) -> entry z is = (norm_factor x * entry x is)%K).
    { intros is Hi. rewrite (entry_amp z) by (auto; rewrite Sz; exact Hi). rewrite (entry_amp x) by (auto; exact (proj1 Hx)). apply Az. exact Hi. }
    split; [exact (proj1 (proj1 (mimul_good x z _ (conj Hx (conj (cform_ok_weak x Hc) Ht)) Ez)))|].
    split; [exact Sz|]. split; [exact Rz|]. split; [exact Cz|]. split; [auto|]. split; [auto|]. split; [exact En|].
    intros E1. rewrite (norm2_scale x z _ Sz En). exact E1.
Qed.

Lemma trivial_form (x : ltens K) : mpa_ok x -> canonical_form x = (0%Z, Z.of_nat (llen x)) -> cform_ok x /\ cform_lt x /\ canon_true x.
Proof.
  intros [Hne _] E. injection E as E1 E2. assert (0 < llen x) by (unfold llen; destruct (lts x); [congruence|cbn; lia]).
  unfold cform_ok, cf_ok, cform_lt, canon_true. rewrite E1, E2. repeat split; intros; try lia.
Qed.

(** ** random_mpa, random_mps *)
Lemma stream_shift (s : stream (K:=K)) k : stream_ok s -> stream_ok (fun n => s (k + n)).
Proof. intros H n sh. apply H. Qed.
Theorem random_mpa_spec s k sites ldim rank normalized force dims :
  stream_ok s -> 0 < sites -> site_dims sites ldim = Ok dims -> length dims = sites -> length (asked_ranks sites rank) + 1 = sites ->
  Forall (fun p => 0 < size p) dims -> Forall (fun r => 0 < r) (asked_ranks sites rank) ->
  outc (qr_fails qr) (random_mpa qr sqrt_ inv s k sites ldim rank normalized force) (fun z =>
    mpa_pos z /\ mshape z = dims /\ ranks z = gen_ranks sites dims rank force /\ canonical_form z = (0%Z, Z.of_nat sites) /\
    exists x, random_mpa qr sqrt_ inv s k sites ldim rank false force = Ok x /\ mpa_pos x /\ mshape x = dims /\
      lts x = gen_ts (fun n => s (k + n)) (1 :: gen_ranks sites dims rank force ++ [1]) 0 dims /\
      (normalized = true -> (forall is, valid_idx is dims -> entry z is = (norm_factor x * entry x is)%K) /\
        ((kconj (norm_factor x) * norm_factor x * norm2_of x)%K = k1 -> norm2_of z = k1)) /\
      (normalized = false -> z = x)).
Proof.
  intros Hs Hn Ed Hl Hr Hp Hrp. unfold random_mpa.
  destruct (generate_spec sites ldim rank _ force dims (stream_shift s k Hs) Hn Ed Hl Hr) as (x & Ex & Hx & Sx & Rx & Cx & Tx & Lx & Px).
  rewrite Ex. cbn [bind]. specialize (Px Hp (gen_ranks_pos _ _ _ _ Hp Hrp)).
  assert (Len : llen x = sites) by (rewrite <- Hl, <- Sx; unfold mshape; rewrite map_length; reflexivity).
  destruct normalized.
  - destruct (trivial_form x Hx) as (C1 & C2 & C3); [rewrite Len; exact Cx|].
    eapply outc_weaken; [apply (normalize_spec x Px C1 Tx)|auto|]. intros z (P1 & P2 & P3 & P4 & P5 & P6 & P7 & P8). cbn beta.
    split; [exact P1|]. split; [congruence|]. split; [congruence|]. split; [rewrite P6 by exact C2; exact Cx|].
    exists x. split; [reflexivity|]. split; [exact Px|]. split; [exact Sx|]. split; [exact Lx|]. split; [|discriminate]. intros _. rewrite <- Sx. split; assumption.
  - apply outc_ok. split; [exact Px|]. do 3 (split; [assumption|]). exists x. split; [reflexivity|]. do 3 (split; [assumption|]). split; [discriminate|reflexivity].
Qed.

(** ** Hermitian operators *)
Lemma local_herm_spec (t : nd K) a d b : ndwf t -> shp t = [a; d; d; b] ->
  exists u, local_herm t = Ok u /\ shp u = [a; d; d; b] /\ ndwf u /\
    forall x i j y, x < a -> i < d -> j < d -> y < b -> get u [x; i; j; y] = (get t [x; i; j; y] + kconj (get t [x; j; i; y]))%K.
Proof.
  intros W E. unfold local_herm, nadd_py. cbn [shp nconj transpose tab]. rewrite E. cbn [gather map nth]. rewrite list_eqb_refl. cbn [praise_unless].
  eexists. split; [reflexivity|]. split; [unfold nadd; cbn [shp tab]; exact E|]. split; [apply wf_tab|].
  intros x i j y Hx Hi Hj Hy. rewrite get_nadd by (rewrite E; repeat constructor; assumption). f_equal. rewrite get_nconj. f_equal.
  unfold transpose. rewrite E. rewrite get_tab by (cbn; repeat constructor; assumption). reflexivity.
Qed.
Definition swap2 (p : list nat) : list nat := match p with [i; j] => [j; i] | _ => p end.
Lemma amp_herm (ts : list (nd K)) : forall us l r, Forall2 (fun t u => local_herm t = Ok u) ts us -> bonds ts l r ->
  Forall (fun t => exists d, pdims t = [d; d]) ts ->
  bonds us l r /\ map pdims us = map pdims ts /\ map ldim us = map ldim ts /\ (PfCanon.pos ts -> PfCanon.pos us) /\
  forall is js a b, valid_idx (pairs is js) (map pdims ts) -> length is = length js -> a < l ->
    amp us (pairs is js) a b = kconj (amp us (pairs js is) a b).
Proof.
  induction ts as [|t ts IH]; intros us l r HF HB HD; inversion HF as [|? u ? us' Eu HF']; subst.
  - cbn in HB. split; [exact HB|]. do 2 (split; [reflexivity|]). split; [intros _; constructor|]. intros is js a b V L Ha. inversion V as [E|]; subst. destruct is, js; try discriminate. cbn. rewrite delta_conj. reflexivity.
  - destruct HB as (Ht & El & HB). inversion HD as [|? ? [d Ed] HD']; subst. pose proof (lt_ok_shp t Ht) as Es. rewrite Ed in Es. cbn [app] in Es.
    destruct (local_herm_spec t (ldim t) d (rdim t) (proj1 Ht) Es) as (u' & Eu' & Su & Wu & Gu). rewrite Eu in Eu'. injection Eu' as <-.
    destruct (IH us' (rdim t) r HF' HB HD') as (I1 & I2 & I2' & I3 & I4).
    assert (Lu : ldim u = ldim t) by (apply (ldim_mk u _ _ Su)). assert (Ru : rdim u = rdim t) by (apply (rdim_mk u (ldim t) [d; d] _ Su)). assert (Pu : pdims u = [d; d]) by (apply (pdims_mk u (ldim t) [d; d] _ Su)).
    split; [cbn [bonds]; split; [apply (lt_ok_mk u (ldim t) [d; d] (rdim t) Wu Su)|rewrite Lu, Ru; auto]|].
    split; [cbn [map]; rewrite Pu, Ed, I2; reflexivity|]. split; [cbn [map]; rewrite Lu, I2'; reflexivity|].
    split. { unfold PfCanon.pos in *. intros HP. inversion HP as [|? ? HP1 HP2]; subst. constructor; [rewrite Su, <- Es; exact HP1|exact (I3 HP2)]. }
    intros is js a b V L Ha. destruct is as [|i is]; destruct js as [|j js]; try discriminate; [inversion V|]. 
    change (pairs (i :: is) (j :: js)) with ([i; j] :: pairs is js) in *. change (pairs (j :: js) (i :: is)) with ([j; i] :: pairs js is).
    cbn [map] in V. inversion V as [|? ? ? ? V1 V2]; subst. rewrite Ed in V1. inversion V1 as [|? ? ? ? Hi V1']; subst. inversion V1' as [|? ? ? ? Hj _]; subst.
    rewrite !amp_cons, Ru. rewrite bigsum_conj. apply bigsum_ext. intros c Hc. rewrite (kconj_mul K). rewrite (I4 is js c b V2) by (auto; cbn in L; lia). rewrite (I2 : _) || idtac. f_equal.
    unfold ent. cbn [app]. rewrite !Gu by assumption. rewrite (kconj_add K), (kconj_invol K). ring.
Qed.
Definition hermitian_mpo (z : ltens K) (ds : list nat) : Prop := forall is js, inr is ds -> inr js ds -> entry z (pairs is js) = kconj (entry z (pairs js is)).
Lemma pairs_valid_sq ds is js : inr is ds -> inr js ds -> valid_idx (pairs is js) (map (fun d => [d; d]) ds).
Proof.
  intros Hi Hj. apply pairs_valid.
  - unfold two_legs. rewrite Forall_map. apply Forall_forall. reflexivity.
  - unfold leg1. rewrite map_map. cbn [nth]. rewrite map_id. exact Hi.
  - unfold leg2. rewrite map_map. cbn [nth]. rewrite map_id. exact Hj.
Qed.

Lemma herm_all (x0 : ltens K) d n : mpa_pos x0 -> mshape x0 = repeat [d; d] n ->
  exists y, (do ts <- mapM local_herm (lts x0); mpa_new ts) = Ok y /\ mpa_pos y /\ mshape y = mshape x0 /\ ranks y = ranks x0 /\
    canonical_form y = (0%Z, Z.of_nat n) /\ hermitian_mpo y (repeat d n).
Proof.
  intros P0 S0. destruct P0 as [[Hne HB] Hpos].
  assert (Len0 : length (lts x0) = n) by (rewrite <- (map_length pdims); change (length (mshape x0) = n); rewrite S0; apply repeat_length).
  assert (HD : Forall (fun t => exists d0, pdims t = [d0; d0]) (lts x0)).
  { apply Forall_forall. intros t Ht. exists d. assert (In (pdims t) (mshape x0)) by (unfold mshape; apply in_map; exact Ht). rewrite S0 in H. apply repeat_spec in H. exact H. }
  assert (Hm : exists us, mapM local_herm (lts x0) = Ok us).
  { assert (HO : Forall lt_ok (lts x0)) by (apply (bonds_ok _ _ _ HB)). clear -HD HO. induction HD as [|t ts [e Ee] HD IH]; [exists []; reflexivity|]. inversion HO as [|? ? Ht HO']; subst.
    destruct (IH HO') as [us Eu]. pose proof (lt_ok_shp t Ht) as Es. rewrite Ee in Es. cbn [app] in Es. destruct (local_herm_spec t _ _ _ (proj1 Ht) Es) as (u & Eu1 & _). exists (u :: us). cbn [mapM]. rewrite Eu1. cbn [bind]. rewrite Eu. reflexivity. }
  destruct Hm as [us Eu]. rewrite Eu. cbn [bind]. pose proof (mapM_inv _ _ _ _ _ Eu) as HF. destruct (amp_herm (lts x0) us 1 1 HF HB HD) as (I1 & I2 & I2' & I3 & I4).
  assert (Hne' : us <> []) by (intros ->; inversion HF as [E|]; congruence).
  rewrite (mpa_new_ok us 1 1 Hne' I1). eexists. split; [reflexivity|].
  assert (Sy : mshape (mkLt us 0 (Z.of_nat (length us))) = mshape x0) by (unfold mshape in *; cbn [lts]; congruence).
  assert (Oy : mpa_ok (mkLt us 0 (Z.of_nat (length us)))) by (split; assumption).
  split; [split; [exact Oy|exact (I3 Hpos)]|]. split; [exact Sy|]. split; [unfold ranks in *; cbn [lts]; rewrite map_tl', I2', <- map_tl'; reflexivity|].
  split; [unfold canonical_form; cbn [lcan rcan]; rewrite <- (Forall2_len _ _ _ _ _ HF), <- Len0; reflexivity|].
  intros is js Hi Hj. assert (V : valid_idx (pairs is js) (mshape x0)) by (rewrite S0; rewrite <- map_rep with (f := fun d => [d; d]); apply pairs_valid_sq; assumption).
  assert (V' : valid_idx (pairs js is) (mshape x0)) by (rewrite S0; rewrite <- map_rep with (f := fun d => [d; d]); apply pairs_valid_sq; assumption).
  rewrite !entry_amp by (auto; rewrite Sy; assumption). cbn [lts]. apply I4; [|rewrite (inr_length _ _ Hi), (inr_length _ _ Hj); reflexivity|lia].
  exact V.
Qed.

Theorem random_mpo_spec s k sites d rank hermitian normalized force :
  stream_ok s -> 0 < sites -> 0 < d -> length (asked_ranks sites rank) + 1 = sites -> Forall (fun r => 0 < r) (asked_ranks sites rank) ->
  outc (qr_fails qr) (random_mpo qr sqrt_ inv s k sites d rank hermitian normalized force) (fun z =>
    mpa_pos z /\ mshape z = repeat [d; d] sites /\ ranks z = gen_ranks sites (repeat [d; d] sites) rank force /\ canonical_form z = (0%Z, Z.of_nat sites) /\
    exists x, random_mpo qr sqrt_ inv s k sites d rank hermitian false force = Ok x /\ mpa_pos x /\ mshape x = repeat [d; d] sites /\
      (normalized = true -> ((forall is, valid_idx is (mshape x) -> entry z is = (norm_factor x * entry x is)%K) /\
        ((kconj (norm_factor x) * norm_factor x * norm2_of x)%K = k1 -> norm2_of z = k1))) /\
      (normalized = false -> z = x) /\
      (hermitian = true -> hermitian_mpo x (repeat d sites)) /\
      (hermitian = true -> (normalized = true -> kconj (norm_factor x) = norm_factor x) -> hermitian_mpo z (repeat d sites)) /\
      (hermitian = false -> random_mpa qr sqrt_ inv s k sites (LOne [d; d]) rank false force = Ok x)).
Proof.
  intros Hs Hn Hd Hr Hrp. set (dims := repeat [d; d] sites).
  assert (Ed : site_dims sites (LOne [d; d]) = Ok dims) by reflexivity.
  assert (Hl : length dims = sites) by apply repeat_length.
  assert (Hp : Forall (fun p => 0 < size p) dims).
  { apply Forall_forall. intros p Hp. apply repeat_spec in Hp. subst p. rewrite !size_cons, size_nil. nia. }
  destruct (generate_spec sites (LOne [d; d]) rank _ force dims (stream_shift s k Hs) Hn Ed Hl Hr) as (x0 & Ex & Hx & S0 & R0 & C0 & T0 & L0 & P0).
  specialize (P0 Hp (gen_ranks_pos _ _ _ _ Hp Hrp)).
  assert (E0 : random_mpa qr sqrt_ inv s k sites (LOne [d; d]) rank false force = Ok x0) by (unfold random_mpa; rewrite Ex; reflexivity).
  assert (Hy : exists y, (if hermitian then do ts <- mapM local_herm (lts x0); mpa_new ts else Ok x0) = Ok y /\ mpa_pos y /\ mshape y = dims /\
     ranks y = gen_ranks sites dims rank force /\ canonical_form y = (0%Z, Z.of_nat sites) /\ (hermitian = true -> hermitian_mpo y (repeat d sites)) /\
     (hermitian = false -> y = x0)).
  { destruct hermitian; [|exists x0; repeat (split; [first [assumption|reflexivity]|]); split; [discriminate|reflexivity]].
    destruct (herm_all x0 d sites P0 S0) as (y & Ey & Py & Sy & Ry & Cy & Hy). exists y. rewrite Sy, Ry. split; [exact Ey|]. split; [exact Py|]. split; [exact S0|]. split; [exact R0|]. split; [exact Cy|]. split; [intros _; exact Hy|discriminate]. }
  destruct Hy as (y & Ey & Py & Sy & Ry & Cy & Hy & Hy').
  assert (Leny : llen y = sites) by (rewrite <- Hl, <- Sy; unfold mshape; rewrite map_length; reflexivity).
  destruct (trivial_form y (proj1 Py)) as (C1 & C2 & C3); [rewrite Leny; exact Cy|].
  assert (Efalse : random_mpo qr sqrt_ inv s k sites d rank hermitian false force = Ok y) by (unfold random_mpo; rewrite E0; cbn [bind]; rewrite Ey; reflexivity).
  destruct normalized.
  - unfold random_mpo. rewrite E0. cbn [bind]. rewrite Ey. cbn [bind].
    eapply outc_weaken; [apply (normalize_spec y Py C1 C3)|auto|]. intros z (Q1 & Q2 & Q3 & Q4 & Q5 & Q6 & Q7 & Q8). cbn beta.
    split; [exact Q1|]. split; [congruence|]. split; [congruence|]. split; [rewrite Q6 by exact C2; exact Cy|].
    exists y. split; [first [exact Efalse|reflexivity]|]. split; [exact Py|]. split; [exact Sy|]. split; [intros _; split; assumption|]. split; [discriminate|]. split; [exact Hy|].
    split; [|intros Eh; rewrite (Hy' Eh); first [exact E0|reflexivity]].
    intros Eh Hnf. specialize (Hy Eh). specialize (Hnf eq_refl). intros is js Hi Hj. rewrite !Q7.
    + rewrite (kconj_mul K), Hnf, (Hy is js Hi Hj). reflexivity.
    + rewrite Sy. unfold dims. rewrite <- map_rep with (f := fun d => [d; d]). apply pairs_valid_sq; assumption.
    + rewrite Sy. unfold dims. rewrite <- map_rep with (f := fun d => [d; d]). apply pairs_valid_sq; assumption.
  - rewrite Efalse. apply outc_ok. do 4 (split; [assumption|]). exists y. split; [reflexivity|]. split; [exact Py|]. split; [exact Sy|]. split; [discriminate|]. split; [reflexivity|]. split; [exact Hy|]. split; [intros Eh _; exact (Hy Eh)|]. intros Eh. rewrite (Hy' Eh). exact E0.
Qed.
End Rand.
