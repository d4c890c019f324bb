(** The environments computed site by site are the contractions of the whole left or
    right part of the chain. *)
From Verif Require Export PfSweep PfLop2.
Open Scope nat_scope.

(** ** Any kind of environment *)
Section Gen.
Context {K : StarRing}.
Add Ring Kr : (k_ring K).
Variables (el er : nd K -> nd K -> nd K -> res (nd K)).
(** Shape of an environment for the bonds of the two chains, kernel of two chains,
    matching sites. *)
Variable bsh : nat -> nat -> list nat.
Variable ker : list (nd K) -> list (nd K) -> list nat -> list nat -> K.
Variable site_ok : nd K -> nd K -> Prop.
Variable m : nat.
Let o : list nat := repeat 0 m.
Hypothesis bsh1 : bsh 1 1 = repeat 1 m.
Hypothesis Hl : forall lv w t, lt_ok w -> lt_ok t -> site_ok w t -> shp lv = bsh (ldim w) (ldim t) ->
  exists e, el lv w t = Ok e /\ ndwf e /\ shp e = bsh (rdim w) (rdim t) /\
  forall y, inr y (shp e) -> get e y = msum (shp lv) (fun x => get lv x * ker [w] [t] x y)%K.
Hypothesis Hr : forall rv w t, lt_ok w -> lt_ok t -> site_ok w t -> shp rv = bsh (rdim w) (rdim t) ->
  exists e, er rv w t = Ok e /\ ndwf e /\ shp e = bsh (ldim w) (ldim t) /\
  forall x, inr x (shp e) -> get e x = msum (shp rv) (fun y => ker [w] [t] x y * get rv y)%K.
Hypothesis Hc : forall ws1 ts1 ws2 ts2 lw lt rw rt x y, bonds ws1 lw rw -> bonds ts1 lt rt ->
  Forall2 site_ok ws1 ts1 -> Forall2 site_ok ws2 ts2 -> inr x (bsh lw lt) ->
  ker (ws1 ++ ws2) (ts1 ++ ts2) x y = msum (bsh rw rt) (fun z => ker ws1 ts1 x z * ker ws2 ts2 z y)%K.
Hypothesis Hn : ker [] [] o o = k1.

Lemma inr_ones x : inr x (repeat 1 m) -> x = o.
Proof.
  unfold o. clear. revert x. induction m as [|k IH]; intros x H; [apply inr_nil_inv; exact H|].
  destruct (inr_cons_inv _ _ _ H) as (i & x' & -> & Hi & Hx). cbn. f_equal; [lia|]. apply IH. exact Hx.
Qed.
Lemma inr_o : inr o (repeat 1 m).
Proof. unfold o. clear. induction m; cbn; [constructor|]. apply inr_cons; [lia|assumption]. Qed.
Lemma get_ones : get (np_ones (K:=K) m) o = k1.
Proof.
  unfold get, np_ones. cbn [shp dat]. replace (ravel (repeat 1 m) o) with 0; [reflexivity|].
  unfold o. clear. induction m; cbn [repeat ravel]; [reflexivity|]. lia.
Qed.

Lemma lenv_gen (ts1 : list (nd K)) : forall ws1 ws2 ts2 lw lt, bonds ws1 1 lw -> bonds ts1 1 lt -> Forall2 site_ok ws1 ts1 ->
  exists e, lenv (nd K) (fun k e t => do w <- pyget (ws1 ++ ws2) (Z.of_nat k); el e w t) (np_ones m) (ts1 ++ ts2) (length ts1) = Ok e /\
    ndwf e /\ shp e = bsh lw lt /\ forall y, inr y (shp e) -> get e y = ker ws1 ts1 o y.
Proof.
  induction ts1 as [|t ts1 IH] using rev_ind; intros ws1 ws2 ts2 lw lt Bw Bt F.
  - inversion F; subst. cbn in Bw, Bt. subst lw lt. exists (np_ones m). split; [reflexivity|]. split; [apply wf_np_ones|].
    rewrite bsh1. split; [reflexivity|]. intros y Hy. cbn [np_ones shp] in Hy. apply inr_ones in Hy. subst y. rewrite Hn. apply get_ones.
  - apply Forall2_app_inv_r in F. destruct F as (ws1' & w' & F1 & F2 & ->). inversion F2 as [|w ? ws0 ? Fw F3]; subst. inversion F3; subst.
    apply bonds_app in Bw. destruct Bw as (lw1 & Bw1 & Bw2). apply bonds_app in Bt. destruct Bt as (lt1 & Bt1 & Bt2).
    destruct Bw2 as (Ow & Ew & Ew'). destruct Bt2 as (Ot & Et & Et'). cbn in Ew', Et'.
    destruct (IH ws1' ([w] ++ ws2) ([t] ++ ts2) lw1 lt1 Bw1 Bt1 F1) as (e & E1 & W1 & S1 & G1).
    rewrite app_length. cbn [length]. rewrite Nat.add_1_r, lenv_S, <- !app_assoc. rewrite E1. cbn [bind].
    cbn [app]. rewrite pyget_at by reflexivity. cbn [bind].
    assert (LL : length ws1' = length ts1) by (apply (Forall2_len _ _ _ _ _ F1)).
    rewrite <- LL, pyget_at by reflexivity. cbn [bind].
    destruct (Hl e w t Ow Ot Fw) as (e' & E2 & W2 & S2 & G2); [rewrite S1; congruence|].
    exists e'. split; [exact E2|]. split; [exact W2|]. split; [rewrite S2; congruence|].
    intros y Hy. rewrite G2 by exact Hy.
    rewrite (Hc ws1' ts1 [w] [t] 1 1 lw1 lt1); [|exact Bw1|exact Bt1|exact F1|exact F2|rewrite bsh1; apply inr_o].
    rewrite S1. apply msum_ext. intros z Hz. rewrite G1 by (rewrite S1; exact Hz). reflexivity.
Qed.

Lemma renv_gen (ts3 : list (nd K)) : forall n v ws12 ts12 ws3 rw rt pos, 1 <= v -> v <= n ->
  bonds ws3 rw 1 -> bonds ts3 rt 1 -> Forall2 site_ok ws3 ts3 ->
  length ws12 = pos + v -> length ts12 = pos + v -> n = length ts12 + length ts3 ->
  exists e, renv (nd K) n v (fun k e t => do w <- pyget (ws12 ++ ws3) (Z.of_nat k); er e w t) (np_ones m) (ts12 ++ ts3) pos = Ok e /\
    ndwf e /\ shp e = bsh rw rt /\ forall x, inr x (shp e) -> get e x = ker ws3 ts3 x o.
Proof.
  induction ts3 as [|t ts3 IH]; intros n v ws12 ts12 ws3 rw rt pos Hv Hvn Bw Bt F Lw Lt Ln.
  - inversion F; subst. cbn in Bw, Bt. subst rw rt. exists (np_ones m). cbn [length] in Hvn |- *.
    split; [unfold renv; replace (length ts12 + 0 - v - pos) with 0 by lia; reflexivity|]. split; [apply wf_np_ones|].
    rewrite bsh1. split; [reflexivity|]. intros y Hy. cbn [np_ones shp] in Hy. apply inr_ones in Hy. subst y. rewrite Hn. apply get_ones.
  - inversion F as [|w ? ws3' ? Fw F']; subst ws3. subst.
    destruct Bw as (Ow & Ew & Bw). destruct Bt as (Ot & Et & Bt). cbn [length] in Hvn |- *.
    destruct (IH (length ts12 + S (length ts3)) v (ws12 ++ [w]) (ts12 ++ [t]) ws3' (rdim w) (rdim t) (S pos) Hv Hvn Bw Bt F') as (e & E1 & W1 & S1 & G1);
      [rewrite app_length; cbn; lia|rewrite app_length; cbn; lia|rewrite app_length; cbn; lia|].
    rewrite renv_S by lia. rewrite <- !app_assoc in E1. cbn [app] in E1. rewrite E1. cbn [bind].
    rewrite (pyget_at _ ts12 t ts3) by lia. cbn [bind]. rewrite (pyget_at _ ws12 w ws3') by lia. cbn [bind].
    destruct (Hr e w t Ow Ot Fw S1) as (e' & E2 & W2 & S2 & G2).
    exists e'. split; [exact E2|]. split; [exact W2|]. split; [rewrite S2; congruence|].
    intros x Hx. rewrite G2 by exact Hx.
    assert (B1w : bonds [w] (ldim w) (rdim w)) by (split; [exact Ow|split; reflexivity]).
    assert (B1t : bonds [t] (ldim t) (rdim t)) by (split; [exact Ot|split; reflexivity]).
    assert (F1 : Forall2 site_ok [w] [t]) by (constructor; [exact Fw|constructor]).
    change (ker (w :: ws3') (t :: ts3) x o) with (ker ([w] ++ ws3') ([t] ++ ts3) x o).
    rewrite (Hc [w] [t] ws3' ts3 (ldim w) (ldim t) (rdim w) (rdim t) x o B1w B1t F1 F'); [|rewrite <- S2; exact Hx].
    rewrite S1. apply msum_ext. intros z Hz. rewrite G1 by (rewrite S1; exact Hz). reflexivity.
Qed.
End Gen.

(** ** Instances *)
Section Inst.
Context {K : StarRing}.
Add Ring Kr : (k_ring K).

Lemma leftvec_none (lv w t : nd K) : eig_leftvec_add lv w t None = eig_leftvec_add lv w t (Some t).
Proof. unfold eig_leftvec_add. destruct (named_new lv _); [|reflexivity]. destruct (named_new w _); [|reflexivity]. cbn [bind].
  destruct (named_new t _); reflexivity. Qed.

Definition sdims (ts : list (nd K)) : list nat := concat (map pdims ts).
Lemma sdims_mps (ts : list (nd K)) ds : mps_like ts ds -> sdims ts = ds.
Proof. unfold sdims, mps_like. intros ->. clear. induction ds as [|d ds IH]; [reflexivity|]. cbn. f_equal. exact IH. Qed.
Lemma sdims_app (a b : list (nd K)) : sdims (a ++ b) = sdims a ++ sdims b.
Proof. unfold sdims. rewrite map_app, concat_app. reflexivity. Qed.

(** Operator: [w] has legs (d, d), [t] has leg d. *)
Definition site_o (w t : nd K) : Prop := exists d, pdims w = [d; d] /\ pdims t = [d].
(** State or target: equal single legs. *)
Definition site_s (w t : nd K) : Prop := exists d, pdims w = [d] /\ pdims t = [d].
Lemma site_o_like ws ts : Forall2 site_o ws ts <-> exists ds, mpo_like ws ds ds /\ mps_like ts ds.
Proof.
  split.
  - induction 1 as [|w t ws ts (d & Hw & Ht) F (ds & [Mo _] & Ms)]; [exists []; repeat split|].
    exists (d :: ds). unfold mpo_like, mps_like in *. cbn [map]. rewrite Mo, Ms, Hw, Ht. repeat split.
  - intros (ds & [Mo _] & Ms). unfold mps_like in Ms. revert ts ds Mo Ms. induction ws as [|w ws IH]; intros ts ds Mo Ms.
    + destruct ds; [|discriminate]. destruct ts; [constructor|discriminate].
    + destruct ds as [|d ds]; [discriminate|]. destruct ts as [|t ts]; [discriminate|]. injection Mo as E1 E2. injection Ms as E3 E4.
      constructor; [exists d; auto|eapply IH; eauto].
Qed.
Lemma site_s_like ws ts : Forall2 site_s ws ts <-> exists ds, mps_like ws ds /\ mps_like ts ds.
Proof.
  split.
  - induction 1 as [|w t ws ts (d & Hw & Ht) F (ds & Mo & Ms)]; [exists []; repeat split|].
    exists (d :: ds). unfold mps_like in *. cbn [map]. rewrite Mo, Ms, Hw, Ht. repeat split.
  - intros (ds & Mo & Ms). unfold mps_like in *. revert ts ds Mo Ms. induction ws as [|w ws IH]; intros ts ds Mo Ms.
    + destruct ds; [|discriminate]. destruct ts; [constructor|discriminate].
    + destruct ds as [|d ds]; [discriminate|]. destruct ts as [|t ts]; [discriminate|]. injection Mo as E1 E2. injection Ms as E3 E4.
      constructor; [exists d; auto|eapply IH; eauto].
Qed.

(** *** The operator environments of [eig] *)
Definition bsh_o (w a : nat) : list nat := [a; w; a].
Definition ker_o (ws ts : list (nd K)) := env3 (sdims ts) (sdims ts) ws ts ts.
Lemma gen_o_l lv w t : lt_ok w -> lt_ok t -> site_o w t -> shp lv = bsh_o (ldim w) (ldim t) ->
  exists e, eig_leftvec_add lv w t None = Ok e /\ ndwf e /\ shp e = bsh_o (rdim w) (rdim t) /\
  forall y, inr y (shp e) -> get e y = msum (shp lv) (fun x => get lv x * ker_o [w] [t] x y)%K.
Proof.
  intros Ow Ot (d & Hw & Ht) Sl. rewrite leftvec_none.
  destruct (leftvec_add_env lv w t t d d Ow Ot Ot Hw Ht Ht Sl) as (e & E & W & S & G). exists e. split; [exact E|]. split; [exact W|]. split; [exact S|].
  intros y Hy. rewrite G by exact Hy. unfold ker_o. replace (sdims [t]) with [d]; [reflexivity|]. unfold sdims. cbn. rewrite Ht. reflexivity.
Qed.
Lemma gen_o_r rv w t : lt_ok w -> lt_ok t -> site_o w t -> shp rv = bsh_o (rdim w) (rdim t) ->
  exists e, eig_rightvec_add rv w t = Ok e /\ ndwf e /\ shp e = bsh_o (ldim w) (ldim t) /\
  forall x, inr x (shp e) -> get e x = msum (shp rv) (fun y => ker_o [w] [t] x y * get rv y)%K.
Proof.
  intros Ow Ot (d & Hw & Ht) Sl.
  destruct (rightvec_add_env rv w t d Ow Ot Hw Ht Sl) as (e & E & W & S & G). exists e. split; [exact E|]. split; [exact W|]. split; [exact S|].
  intros y Hy. rewrite G by exact Hy. unfold ker_o. replace (sdims [t]) with [d]; [reflexivity|]. unfold sdims. cbn. rewrite Ht. reflexivity.
Qed.
Lemma gen_o_c ws1 ts1 ws2 ts2 lw lt rw rt x y : bonds ws1 lw rw -> bonds ts1 lt rt ->
  Forall2 site_o ws1 ts1 -> Forall2 site_o ws2 ts2 -> inr x (bsh_o lw lt) ->
  ker_o (ws1 ++ ws2) (ts1 ++ ts2) x y = msum (bsh_o rw rt) (fun z => ker_o ws1 ts1 x z * ker_o ws2 ts2 z y)%K.
Proof.
  intros Bw Bt F1 F2 Hx. unfold ker_o. rewrite sdims_app. apply site_o_like in F1. destruct F1 as (ds & Mo & Ms).
  pose proof (mpo_like_length _ _ _ Mo) as L1. pose proof (mps_like_length _ _ Ms) as L2. rewrite (sdims_mps _ _ Ms).
  apply (env3_app ds ds ws1 ts1 ts1 _ _ ws2 ts2 ts2 lw lt lt rw rt rt); auto; lia.
Qed.
Lemma gen_o_n : ker_o [] [] (repeat 0 3) (repeat 0 3) = k1.
Proof. unfold ker_o, sdims. cbn [map concat]. rewrite env3_nil. cbn [repeat b3 nth]. unfold delta. cbn. ring. Qed.

(** *** The state environments of [eig_sum] *)
Definition bsh_s (w a : nat) : list nat := [w; a].
Lemma gen_s_l lv w t : lt_ok w -> lt_ok t -> site_s w t -> shp lv = bsh_s (ldim w) (ldim t) ->
  exists e, eig_leftvec_add_mps lv w t = Ok e /\ ndwf e /\ shp e = bsh_s (rdim w) (rdim t) /\
  forall y, inr y (shp e) -> get e y = msum (shp lv) (fun x => get lv x * gram2 [w] [t] x y)%K.
Proof. intros Ow Ot (d & Hw & Ht) Sl. apply (leftvec_add_mps_env lv w t d); auto. Qed.
Lemma gen_s_r rv w t : lt_ok w -> lt_ok t -> site_s w t -> shp rv = bsh_s (rdim w) (rdim t) ->
  exists e, eig_rightvec_add_mps rv w t = Ok e /\ ndwf e /\ shp e = bsh_s (ldim w) (ldim t) /\
  forall x, inr x (shp e) -> get e x = msum (shp rv) (fun y => gram2 [w] [t] x y * get rv y)%K.
Proof. intros Ow Ot (d & Hw & Ht) Sl. apply (rightvec_add_mps_env rv w t d); auto. Qed.
Lemma gen_s_c ws1 ts1 ws2 ts2 lw lt rw rt x y : bonds ws1 lw rw -> bonds ts1 lt rt ->
  Forall2 site_s ws1 ts1 -> Forall2 site_s ws2 ts2 -> inr x (bsh_s lw lt) ->
  gram2 (ws1 ++ ws2) (ts1 ++ ts2) x y = msum (bsh_s rw rt) (fun z => gram2 ws1 ts1 x z * gram2 (K:=K) ws2 ts2 z y)%K.
Proof.
  intros Bw Bt F1 F2 Hx. apply site_s_like in F1. destruct F1 as (ds & Mo & Ms). unfold mps_like in *.
  apply (gram2_app ws1 ts1 ws2 ts2 lw lt rw rt); auto. congruence.
Qed.
Lemma gen_s_n : gram2 (K:=K) [] [] (repeat 0 2) (repeat 0 2) = k1.
Proof. unfold gram2, gram. cbn [repeat b3 nth map msums amp]. unfold delta. cbn. rewrite kconj_1. ring. Qed.

(** *** The environments of variational compression *)
Definition bsh_a (w a : nat) : list nat := [a; w].
Definition ker_a (ws ts : list (nd K)) := gram2' ts ws.
Lemma gen_a_l lv w t : lt_ok w -> lt_ok t -> site_s w t -> shp lv = bsh_a (ldim w) (ldim t) ->
  exists e, adapt_add_l lv t w = Ok e /\ ndwf e /\ shp e = bsh_a (rdim w) (rdim t) /\
  forall y, inr y (shp e) -> get e y = msum (shp lv) (fun x => get lv x * ker_a [w] [t] x y)%K.
Proof. intros Ow Ot (d & Hw & Ht) Sl. apply (adapt_add_l_env lv t w d); auto. Qed.
Lemma gen_a_r rv w t : lt_ok w -> lt_ok t -> site_s w t -> shp rv = bsh_a (rdim w) (rdim t) ->
  exists e, adapt_add_r rv t w = Ok e /\ ndwf e /\ shp e = bsh_a (ldim w) (ldim t) /\
  forall x, inr x (shp e) -> get e x = msum (shp rv) (fun y => ker_a [w] [t] x y * get rv y)%K.
Proof. intros Ow Ot (d & Hw & Ht) Sl. apply (adapt_add_r_env rv t w d); auto. Qed.
Lemma gen_a_c ws1 ts1 ws2 ts2 lw lt rw rt x y : bonds ws1 lw rw -> bonds ts1 lt rt ->
  Forall2 site_s ws1 ts1 -> Forall2 site_s ws2 ts2 -> inr x (bsh_a lw lt) ->
  ker_a (ws1 ++ ws2) (ts1 ++ ts2) x y = msum (bsh_a rw rt) (fun z => ker_a ws1 ts1 x z * ker_a ws2 ts2 z y)%K.
Proof.
  intros Bw Bt F1 F2 Hx. apply site_s_like in F1. destruct F1 as (ds & Mo & Ms). unfold mps_like in *.
  apply (gram2'_app ts1 ws1 ts2 ws2 lt lw rt rw); auto. congruence.
Qed.
Lemma gen_a_n : ker_a [] [] (repeat 0 2) (repeat 0 2) = k1.
Proof. unfold ker_a, gram2', gram. cbn [repeat b3 nth map msums amp]. unfold delta. cbn. rewrite kconj_1. ring. Qed.

Definition lenv_o := lenv_gen (fun lv w t => eig_leftvec_add lv w t None) bsh_o ker_o site_o 3 eq_refl gen_o_l gen_o_c gen_o_n.
Definition renv_o := renv_gen eig_rightvec_add bsh_o ker_o site_o 3 eq_refl gen_o_r gen_o_c gen_o_n.
Definition lenv_s := lenv_gen eig_leftvec_add_mps bsh_s gram2 site_s 2 eq_refl gen_s_l gen_s_c gen_s_n.
Definition renv_s := renv_gen eig_rightvec_add_mps bsh_s gram2 site_s 2 eq_refl gen_s_r gen_s_c gen_s_n.
Definition lenv_a := lenv_gen (fun lv w t => adapt_add_l lv t w) bsh_a ker_a site_s 2 eq_refl gen_a_l gen_a_c gen_a_n.
Definition renv_a := renv_gen (fun lv w t => adapt_add_r lv t w) bsh_a ker_a site_s 2 eq_refl gen_a_r gen_a_c gen_a_n.
End Inst.
