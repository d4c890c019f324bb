(** Chains with one leg per site, windows of them, and the sweeps of PfSweep with a
    local update that is only known on such chains. *)
From Verif Require Export PfChainEnv.
From Verif Require Import PfCanon PfBounds PfUpdate PfFromArray PfCompress.
Open Scope nat_scope.

Lemma foldM_inv {A S : Type} (I : S -> Prop) (f g : S -> A -> res S) l : forall s, I s ->
  (forall a s, In a l -> I s -> f s a = g s a /\ forall s', f s a = Ok s' -> I s') ->
  foldM f l s = foldM g l s /\ forall s', foldM f l s = Ok s' -> I s'.
Proof.
  induction l as [|a l IH]; intros s Hs H.
  - split; [reflexivity|]. intros s' E. injection E as <-. exact Hs.
  - cbn [foldM]. destruct (H a s (or_introl eq_refl) Hs) as [E1 E2]. rewrite <- E1. destruct (f s a) as [s1|e] eqn:Ef; cbn [bind].
    + apply IH; [apply E2; reflexivity|]. intros b s2 Hb. apply H. right. exact Hb.
    + split; [reflexivity|discriminate].
Qed.

Lemma concat_singles l : concat (singles l) = l.
Proof. induction l as [|a l IH]; [reflexivity|]. cbn. f_equal. exact IH. Qed.

Section Ext.
Context {K : StarRing}.
Variable qr : nd K -> res (nd K * nd K).
Variables (V : Type) (n v : nat).
Variable I : ltens K -> Prop.
Variables f g : ltens K -> nat -> res (V * list (nd K)).
Hypothesis Hfg : forall x pos, I x -> pos <= n - v -> f x pos = g x pos.
Hypothesis Hup : forall x pos p x', I x -> pos <= n - v -> g x pos = Ok p ->
  lt_update_slice x (mkSlice (Some (Z.of_nat pos)) (Some (Z.of_nat (pos + v))) None) (snd p) (COne None) = Ok x' -> I x'.
Hypothesis Hcl : forall x pos x', I x -> 0 < pos <= n - v -> canonicalize qr x (CAInt (Z.of_nat pos)) CANone = Ok x' -> I x'.
Hypothesis Hcr : forall x pos x', I x -> pos < n - v -> canonicalize qr x CANone (CAInt (Z.of_nat (pos + v))) = Ok x' -> I x'.

Lemma g_local_ext s pos : I (fst s) -> pos <= n - v ->
  g_local V v f s pos = g_local V v g s pos /\ forall s', g_local V v f s pos = Ok s' -> I (fst s').
Proof.
  intros Hs Hp. unfold g_local. rewrite (Hfg _ _ Hs Hp). split; [reflexivity|]. intros s' E.
  apply bind_inv in E. destruct E as (p & E1 & E). apply bind_inv in E. destruct E as (x' & E2 & E). injection E as <-. eapply Hup; eauto.
Qed.
Theorem g_sweeps_ext num s : I (fst s) ->
  g_sweeps qr V n v f num s = g_sweeps qr V n v g num s /\ forall s', g_sweeps qr V n v f num s = Ok s' -> I (fst s').
Proof.
  intros Hs. apply (foldM_inv (fun s => I (fst s))); [exact Hs|]. clear s Hs. intros num' s _ Hs. unfold g_one.
  destruct (foldM_inv (fun s => I (fst s)) (g_ltr qr V v f) (g_ltr qr V v g) (if Nat.ltb 0 num' then seq 1 (n - v) else seq 0 (n - v + 1)) s Hs) as [E1 I1].
  { clear s Hs. intros pos s Hp Hs. assert (Hp' : pos <= n - v) by (destruct (Nat.ltb 0 num'); apply in_seq in Hp; lia).
    unfold g_ltr. destruct (Nat.ltb_spec 0 pos) as [L|L].
    - destruct (canonicalize qr (fst s) (CAInt (Z.of_nat pos)) CANone) as [x|e] eqn:E; cbn [bind]; [|split; [reflexivity|discriminate]].
      apply g_local_ext; [|exact Hp']. cbn. apply (Hcl (fst s) pos x); auto.
    - cbn [bind]. apply g_local_ext; [exact Hs|exact Hp']. }
  rewrite <- E1. destruct (foldM (g_ltr qr V v f) _ s) as [s1|e] eqn:E; cbn [bind]; [|split; [reflexivity|discriminate]].
  apply (foldM_inv (fun s => I (fst s))); [apply I1; reflexivity|]. clear s Hs E1 I1 E s1. intros pos s Hp Hs.
  rewrite <- in_rev in Hp. apply in_seq in Hp. unfold g_rtl.
  destruct (canonicalize qr (fst s) CANone (CAInt (Z.of_nat (pos + v)))) as [x|e] eqn:E; cbn [bind]; [|split; [reflexivity|discriminate]].
  apply g_local_ext; [|lia]. cbn. apply (Hcr (fst s) pos x); auto; lia.
Qed.
End Ext.

Section Window.
Context {K : StarRing}.
Variable qr : nd K -> res (nd K * nd K).
Hypothesis Hqr : qr_sound qr.

(** ** The chains *)
Definition mps_inv (ds : list nat) (x : ltens K) : Prop := chain_ok (lts x) 1 1 /\ mps_like (lts x) ds /\ cform_wk x.

Lemma mps_inv_len ds x : mps_inv ds x -> length (lts x) = length ds.
Proof. intros (_ & M & _). apply mps_like_length. exact M. Qed.
Lemma sim_inv ds x z : mps_inv ds x -> sim 1 1 x z -> cform_wk z -> mps_inv ds z.
Proof. intros (C & M & W) (C' & M' & _) W'. split; [exact C'|]. split; [|exact W']. unfold mps_like in *. unfold mshape in M'. congruence. Qed.
Lemma inv_canon_left ds x pos z : mps_inv ds x -> 0 < pos < length ds -> canonicalize qr x (CAInt (Z.of_nat pos)) CANone = Ok z -> mps_inv ds z.
Proof.
  intros H Hp E. pose proof (mps_inv_len _ _ H) as L. pose proof H as (C & M & W).
  pose proof (canonicalize_spec qr Hqr 1 1 x (CAInt (Z.of_nat pos)) CANone C W) as P. cbn zeta in P. cbn [left_target right_target] in P. unfold llen in P.
  destruct (Z.ltb_spec (Z.of_nat pos) 0); [lia|].
  destruct (outc_inv _ _ _ _ (P ltac:(intros [? _]; discriminate) ltac:(lia) ltac:(lia) ltac:(lia)) E) as (S & W' & _).
  eapply sim_inv; eauto.
Qed.
Lemma inv_canon_right ds x pos z : mps_inv ds x -> 0 < pos <= length ds -> canonicalize qr x CANone (CAInt (Z.of_nat pos)) = Ok z -> mps_inv ds z.
Proof.
  intros H Hp E. pose proof (mps_inv_len _ _ H) as L. pose proof H as (C & M & W).
  pose proof (canonicalize_spec qr Hqr 1 1 x CANone (CAInt (Z.of_nat pos)) C W) as P. cbn zeta in P. cbn [left_target right_target] in P. unfold llen in P.
  destruct (Z.ltb_spec (Z.of_nat pos) 0); [lia|].
  destruct (outc_inv _ _ _ _ (P ltac:(intros [_ ?]; discriminate) ltac:(lia) ltac:(lia) ltac:(lia)) E) as (S & W' & _).
  eapply sim_inv; eauto.
Qed.

(** ** Windows *)
Record window (ds : list nat) (x : ltens K) (pos v : nat) (X1 X2 X3 : list (nd K)) (d1 d2 d3 : list nat) (la ra : nat) : Prop := {
  w_x : lts x = X1 ++ X2 ++ X3; w_ds : ds = d1 ++ d2 ++ d3;
  w_l1 : length X1 = pos; w_l2 : length X2 = v; w_e1 : length d1 = pos; w_e2 : length d2 = v;
  w_m1 : mps_like X1 d1; w_m2 : mps_like X2 d2; w_m3 : mps_like X3 d3;
  w_b1 : bonds X1 1 la; w_b2 : bonds X2 la ra; w_b3 : bonds X3 ra 1;
  w_p1 : PfCanon.pos X1; w_p2 : PfCanon.pos X2; w_p3 : PfCanon.pos X3; w_ne : X2 <> [] }.
Lemma window_ex ds x pos v : mps_inv ds x -> 1 <= v -> pos + v <= length ds ->
  exists X1 X2 X3 d1 d2 d3 la ra, window ds x pos v X1 X2 X3 d1 d2 d3 la ra.
Proof.
  intros H Hv Hp. pose proof (mps_inv_len _ _ H) as L. destruct H as ((_ & B & P) & M & W).
  rewrite <- (firstn_skipn pos (lts x)) in B, P, M. rewrite <- (firstn_skipn v (skipn pos (lts x))) in B, P, M.
  assert (Hds : ds = firstn pos ds ++ firstn v (skipn pos ds) ++ skipn v (skipn pos ds)) by (rewrite !firstn_skipn; reflexivity).
  set (X1 := firstn pos (lts x)) in *. set (X2 := firstn v (skipn pos (lts x))) in *. set (X3 := skipn v (skipn pos (lts x))) in *.
  apply bonds_app in B. destruct B as (la & B1 & B). apply bonds_app in B. destruct B as (ra & B2 & B3).
  unfold PfCanon.pos in P. apply Forall_app in P. destruct P as [P1 P]. apply Forall_app in P. destruct P as [P2 P3].
  assert (L1 : length X1 = pos) by (unfold X1; rewrite firstn_length; lia).
  assert (L2 : length X2 = v) by (unfold X2; rewrite firstn_length, skipn_length; lia).
  exists X1, X2, X3, (firstn pos ds), (firstn v (skipn pos ds)), (skipn v (skipn pos ds)), la, ra.
  assert (E1 : length (firstn pos ds) = pos) by (rewrite firstn_length; lia).
  assert (E2 : length (firstn v (skipn pos ds)) = v) by (rewrite firstn_length, skipn_length; lia).
  unfold mps_like in M. rewrite !map_app, Hds in M. unfold singles in M. rewrite !map_app in M.
  apply app_split in M; [|rewrite !map_length; lia]. destruct M as [M1 M]. apply app_split in M; [|rewrite !map_length; lia]. destruct M as [M2 M3].
  split; auto.
  - unfold X1, X2, X3. rewrite !firstn_skipn. reflexivity.
  - intros E. rewrite E in L2. cbn in L2. lia.
Qed.

Lemma window_slice ds x pos v X1 X2 X3 d1 d2 d3 la ra : window ds x pos v X1 X2 X3 d1 d2 d3 la ra ->
  pyslice (lts x) (Z.of_nat pos) (Z.of_nat (pos + v)) = X2.
Proof. intros W. rewrite (w_x _ _ _ _ _ _ _ _ _ _ _ _ W). apply pyslice_mid; [rewrite (w_l1 _ _ _ _ _ _ _ _ _ _ _ _ W); reflexivity|].
  rewrite (w_l1 _ _ _ _ _ _ _ _ _ _ _ _ W), (w_l2 _ _ _ _ _ _ _ _ _ _ _ _ W). reflexivity. Qed.

Lemma window_update ds x pos v X1 X2 X3 d1 d2 d3 la ra ts z : mps_inv ds x -> window ds x pos v X1 X2 X3 d1 d2 d3 la ra ->
  chain_ok ts la ra -> mps_like ts d2 ->
  lt_update_slice x (mkSlice (Some (Z.of_nat pos)) (Some (Z.of_nat (pos + v))) None) ts (COne None) = Ok z ->
  mps_inv ds z /\ lts z = X1 ++ ts ++ X3.
Proof.
  intros H W (Nt & Bt & Pt) Mt E. destruct W as [wx wd l1 l2 e1 e2 m1 m2 m3 b1 b2 b3 p1 p2 p3 ne]. destruct x as [xs cl cr]. cbn [lts] in wx. subst xs.
  pose proof H as ((Cn & Cb & Cp) & M & Wk). cbn [lts] in *.
  assert (Lt : length ts = length X2) by (apply mps_like_length in m2, Mt; congruence).
  destruct (update_slice_spec X1 X3 X2 ts cl cr (COne None) (repeat None (length ts)) la ra) as (z' & E' & Ok' & Lz & _ & Wz & _); auto.
  { split; [exact Cn|]. exact Cb. } { apply repeat_length. }
  rewrite l1 in E'. rewrite l2 in E'. rewrite <- Nat2Z.inj_add in E'. rewrite E in E'. injection E' as <-.
  split; [|exact Lz]. split; [|split].
  - destruct Ok' as [N0 B0]. split; [exact N0|]. split; [exact B0|]. rewrite Lz. unfold PfCanon.pos. rewrite !Forall_app. auto.
  - rewrite Lz. subst ds. apply mps_like_join; [exact m1|]. apply mps_like_join; assumption.
  - apply Wz. exact Wk.
Qed.

(** ** Splitting a tensor of the window into sites *)
Variable svd : nd K -> res (nd K * list K * nd K).
Hypothesis Hsvd : svd_sound svd.

Lemma lt_ok_shape (t : nd K) l p r : shp t = l :: p ++ [r] -> ndwf t -> lt_ok t /\ ldim t = l /\ pdims t = p /\ rdim t = r.
Proof.
  intros S W. split; [split; [exact W|unfold ndim; rewrite S; cbn; rewrite app_length; cbn; lia]|].
  unfold ldim, pdims, rdim. rewrite S. cbn [hd tl]. rewrite removelast_last. split; [reflexivity|]. split; [reflexivity|].
  change (l :: p ++ [r]) with ((l :: p) ++ [r]). apply last_last.
Qed.

Lemma window_split (t : nd K) la d2 ra rk c : shp t = la :: d2 ++ [ra] -> ndwf t -> 0 < size (shp t) -> d2 <> [] -> 0 < rk ->
  (do z <- from_array qr t (NDInt 1) true; compress_svd qr svd (truncated_svd svd) z (Some rk) None DNone true) = Ok c ->
  chain_ok (lts (fst c)) la ra /\ mps_like (lts (fst c)) d2 /\ Forall (fun k => k <= rk) (ranks (fst c)) /\
  cform_ok (fst c) /\ canon_true (fst c) /\
  exists z, from_array qr t (NDInt 1) true = Ok z /\ chain_ok (lts z) la ra /\ mps_like (lts z) d2 /\
    ovl la ra (lts z) (lts (fst c)) = ovl la ra (lts (fst c)) (lts (fst c)) /\
    forall is a b, inr is d2 -> a < la -> b < ra -> amp (lts z) (singles is) a b = get t (a :: is ++ [b]).
Proof.
  intros S W P N R E. destruct (lt_ok_shape t la d2 ra S W) as (Lo & Ll & Lp & Lr).
  apply bind_inv in E. destruct E as (z & E1 & E2).
  assert (Cs : concat (singles d2) = d2) by apply concat_singles.
  unfold from_array in E1. apply bind_inv in E1. destruct E1 as (ts & E0 & E1).
  assert (X : outc (qr_fails qr) (extract_factors_int qr t 1) (fun ts =>
     chain_ok ts (ldim t) (rdim t) /\ map pdims ts = singles d2 /\ map ldim (tl ts) = qranks (ldim t) (singles d2) (rdim t) /\ Forall left_iso (removelast ts) /\
     forall is a b, Forall2 inr is (singles d2) -> a < ldim t -> b < rdim t -> amp ts is a b = ent t a (concat is) b)).
  { apply extract_int_spec; auto.
    - intros E. apply map_eq_nil in E. contradiction.
    - unfold singles. apply Forall_map. apply Forall_forall. reflexivity.
    - rewrite Cs. exact Lp. }
  pose proof (outc_inv _ _ _ _ X E0) as (C & M & _ & LI & A). rewrite Ll, Lr in C, A.
  pose proof C as (Nz & Bz & Pz).
  rewrite (lt_init_ok ts la ra) in E1; [|exact Nz|exact Bz|destruct ts; [contradiction|]; unfold cf_ok; cbn [length]; lia]. injection E1 as <-.
  pose proof (left_form_mk ts Nz LI) as [Fz Tz]. set (z := mkLt ts _ _) in *.
  assert (Wz : cform_wk z) by (unfold cform_wk, llen; cbn [z lts lcan rcan]; destruct ts; [contradiction|]; cbn [length]; lia).
  assert (Cz : cform_ok z) by (unfold cform_ok, llen, cf_ok; cbn [z lts lcan rcan]; destruct ts; [contradiction|]; cbn [length]; lia).
  pose proof (compress_svd_spec svd (truncated_svd svd) Hsvd (truncated_svd_sound svd Hsvd) qr Hqr la ra z (Some rk) None DNone true C Wz (fun _ => conj Cz Tz) R Logic.I ltac:(discriminate)) as X2.
  pose proof (outc_inv _ _ _ _ X2 E2) as X3. destruct c as [c ov]. cbn [fst]. destruct X3 as (Cc & Mc & _ & Rc & Fc & Tc & _ & Oc & _).
  split; [exact Cc|]. split; [unfold mps_like; transitivity (mshape z); [exact Mc|exact M]|]. split; [exact Rc|]. split; [exact Fc|]. split; [exact Tc|].
  exists z. split; [|split; [exact C|]]; [|split; [exact M|split; [exact Oc|]]].
  - unfold from_array. rewrite E0. cbn [bind]. apply (lt_init_ok ts la ra); auto.
  - intros is a b Hi Ha Hb. cbn. rewrite A; auto; [rewrite concat_singles; reflexivity|]. apply singles_valid. exact Hi.
Qed.

(** ** The result of a local eigenvector problem *)
Variable eigs : nd K -> list K -> res (nd K * nd K).
(** The solver returns arrays whose data match their shape. *)
Definition eigs_wf : Prop := forall op v0 val vec, eigs op v0 = Ok (val, vec) -> ndwf vec.
Hypothesis Heigs : eigs_wf.

Lemma reshape_py_inv (a : nd K) sh t : reshape_py a (zshape sh) = Ok t -> t = reshape a sh /\ size sh = size (shp a).
Proof.
  intros E. destruct (Nat.eq_dec (size sh) (size (shp a))) as [H|H]; [rewrite zshape_reshape in E by exact H; injection E as <-; auto|].
  exfalso. unfold reshape_py, resolve_shape, zshape in E.
  assert (F1 : existsb (fun z => (z <? -1)%Z) (map Z.of_nat sh) = false).
  { apply not_true_iff_false. rewrite existsb_exists. intros (z & Hz & L). apply in_map_iff in Hz. destruct Hz as (k & <- & _). apply Z.ltb_lt in L. lia. }
  assert (F2 : filter (fun z => (z =? -1)%Z) (map Z.of_nat sh) = []).
  { clear. induction sh as [|k sh IH]; [reflexivity|]. cbn [map filter]. destruct (Z.eqb_spec (Z.of_nat k) (-1)); [lia|exact IH]. }
  assert (F3 : fold_right (fun z acc => if (z =? -1)%Z then acc else (z * acc)%Z) 1%Z (map Z.of_nat sh) = Z.of_nat (size sh)).
  { clear. induction sh as [|k sh IH]; [reflexivity|]. cbn [map fold_right]. destruct (Z.eqb_spec (Z.of_nat k) (-1)); [lia|]. rewrite IH, size_cons. lia. }
  cbn zeta in E. rewrite F1, F2, F3 in E. cbn [length] in E. destruct (Z.eqb_spec (Z.of_nat (size sh)) (Z.of_nat (size (shp a)))) in E; [lia|discriminate].
Qed.

Lemma minimize2_window op X2 la d2 ra val ts : chain_ok X2 la ra -> mps_like X2 d2 -> eig_minimize2 qr svd eigs op X2 = Ok (val, ts) ->
  chain_ok ts la ra /\ mps_like ts d2.
Proof.
  intros (Nx & Bx & Px) Mx E. unfold eig_minimize2 in E.
  apply bind_inv in E. destruct E as (rk & Erk & E). apply bind_inv in E. destruct E as (t0 & E0 & E). apply bind_inv in E. destruct E as (t & Et & E).
  apply bind_inv in E. destruct E as ((va & vec) & Ee & E). apply bind_inv in E. destruct E as (vec' & Ev & E).
  apply bind_inv in E. destruct E as (lt & El & E). apply bind_inv in E. destruct E as (us & Eu & E). injection E as <- <-.
  destruct X2 as [|x X2]; [contradiction|]. rewrite (pyget_at _ [] x X2 0 eq_refl : pyget (x :: X2) 0 = Ok x) in E0. injection E0 as <-.
  cbn [tl] in Et. pose proof Bx as (Ox & Lx & Bx'). rewrite (foldM_matdot X2 x ra Ox Bx') in Et. injection Et as <-.
  destruct (ltens_to_array_spec (x :: X2) la ra Nx Bx) as (Ot & Tl & Tr & Tp & _). cbn zeta in *.
  change (fold_left matdot X2 x) with (ltens_to_array (x :: X2)) in El. set (t := ltens_to_array (x :: X2)) in *.
  assert (St : shp t = la :: d2 ++ [ra]).
  { rewrite (lt_ok_shp t Ot), Tl, Tp, Tr. fold (sdims (x :: X2)). rewrite (sdims_mps _ _ Mx). reflexivity. }
  destruct (bonds_pos_ends _ _ _ Nx Bx Px) as (Hl & Hr & Hs). fold (sdims (x :: X2)) in Hs. rewrite (sdims_mps _ _ Mx) in Hs.
  assert (Pt : 0 < size (shp t)).
  { rewrite St, size_cons, size_app. unfold size at 2. cbn. nia. }
  assert (Wv : ndwf vec').
  { pose proof (Heigs _ _ _ _ Ee) as Wv. destruct (ndim vec) as [|[|[|]]] eqn:Nv in Ev; try discriminate.
    - destruct (Nat.eqb _ _) in Ev; [|discriminate]. injection Ev as <-. exact Wv.
    - cbn [praise_unless] in Ev. destruct (list_eqb (shp va) [1]) in Ev; [|discriminate]. destruct (Nat.eqb_spec (nth 1 (shp vec) 0) 1) as [H1|] in Ev; [|discriminate].
      injection Ev as <-. unfold ndim in Nv. destruct (shp vec) as [|p [|q []]] eqn:S in Nv; try discriminate. unfold ndwf in *. rewrite S in *. cbn [shp dat nth] in *.
      subst q. rewrite Wv. unfold size. cbn. lia. }
  destruct (reshape_py_inv _ _ _ El) as [-> Sl]. set (lt := reshape vec' (shp t)) in *.
  assert (Wl : ndwf lt) by (apply wf_reshape; auto).
  assert (Nd : d2 <> []) by (intros ->; unfold mps_like in Mx; discriminate).
  destruct (Nat.eqb_spec (length (x :: X2)) 1) as [L1|L1].
  - injection Eu as <-. destruct X2; [|discriminate]. destruct (lt_ok_shape lt la d2 ra St Wl) as (Lo & Ll & Lp & Lr).
    split; [split; [discriminate|]; split; [split; [exact Lo|split; [exact Ll|exact Lr]]|constructor; [exact Pt|constructor]]|].
    destruct d2 as [|d [|]]; try discriminate. unfold mps_like. cbn. rewrite Lp. reflexivity.
  - apply bind_inv in Eu. destruct Eu as (z & Ez & Eu). apply bind_inv in Eu. destruct Eu as (c & Ec & Eu). injection Eu as <-.
    assert (Hrk : 0 < rk).
    { unfold max_left in Erk. cbn [map] in Erk. injection Erk as <-. rewrite Lx. clear - Hl. induction (map ldim X2); cbn; lia. }
    destruct (window_split lt la d2 ra rk c) as (A & B & _); auto; try exact St; try exact Pt.
    rewrite Ez. exact Ec.
Qed.
End Window.
