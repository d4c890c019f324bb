(** Partial traces of MPOs: [reductions_mpo] (mpsmpo.py 221-282). *)
From Verif Require Export PfRedPmps.

Section RedMpo.
Context {K : StarRing}.
Add Ring Kr : (k_ring K).

(** Number of diagonal entries of each site. *)
Definition diagd (ps : list (list nat)) : list nat := map (fun p => Nat.min (nth 0 p 0) (nth 1 p 0)) ps.
(** Trace over all sites of a chain with open bonds. *)
Definition trA (ts : list (nd K)) (a b : nat) : K := msum (diagd (map pdims ts)) (fun ks => amp ts (pairs ks ks) a b).

Lemma len_diagd (ts : list (nd K)) ks : inr ks (diagd (map pdims ts)) -> length ks = length ts.
Proof. intros H. apply inr_length in H. unfold diagd in H. rewrite !map_length in H. exact H. Qed.
Lemma trA_app (ts us : list (nd K)) l m a b : bonds ts l m -> a < l ->
  trA (ts ++ us) a b = bigsum m (fun c => trA ts a c * trA us c b)%K.
Proof.
  intros Hb Ha. unfold trA. rewrite map_app. unfold diagd. rewrite map_app. fold (diagd (map pdims ts)) (diagd (map pdims us)).
  rewrite msum_app.
  rewrite (msum_ext _ _ (fun ks => bigsum m (fun c => amp ts (pairs ks ks) a c * trA us c b)))%K.
  - rewrite msum_bigsum_swap. apply bigsum_ext. intros c _. rewrite msum_mul_r. reflexivity.
  - intros ks Hk. apply len_diagd in Hk.
    rewrite (msum_ext _ _ (fun ms => bigsum m (fun c => amp ts (pairs ks ks) a c * amp us (pairs ms ms) c b)))%K.
    + rewrite msum_bigsum_swap. apply bigsum_ext. intros c _. rewrite msum_mul_l. reflexivity.
    + intros ms _. rewrite pairs_app by reflexivity. apply amp_app with (l := l); auto. rewrite pairs_length; auto.
Qed.
Lemma trA_nil a b : trA [] a b = delta a b. Proof. reflexivity. Qed.
Lemma trA_one (t : nd K) a b : b < rdim t ->
  trA [t] a b = bigsum (Nat.min (nth 0 (pdims t) 0) (nth 1 (pdims t) 0)) (fun k => ent t a [k; k] b).
Proof.
  intros Hb. unfold trA. cbn [map diagd msum]. apply bigsum_ext. intros k _. cbn [pairs zip2]. rewrite amp_one by auto. reflexivity.
Qed.

Lemma trace12 (t : nd K) l d1 d2 r : shp t = [l; d1; d2; r] ->
  shp (trace_axes t 1 2) = [l; r] /\ ndwf (trace_axes t 1 2) /\
  forall a b, a < l -> b < r -> get (trace_axes t 1 2) [a; b] = bigsum (Nat.min d1 d2) (fun k => ent t a [k; k] b).
Proof.
  intros E. unfold trace_axes. rewrite E. unfold ndim. rewrite E. cbn [length].
  change (freeaxes 4 [1; 2]) with [0; 3]. split; [reflexivity|]. split; [apply wf_tab|].
  intros a b Ha Hb. rewrite get_tab by (repeat constructor; auto). reflexivity.
Qed.
Lemma trace_mat (t : nd K) : lt_ok t -> length (pdims t) = 2 ->
  shp (trace_axes t 1 2) = [ldim t; rdim t] /\ ndwf (trace_axes t 1 2) /\
  forall a b, a < ldim t -> b < rdim t -> get (trace_axes t 1 2) [a; b] = trA [t] a b.
Proof.
  intros Ht H2. destruct (two_leg t H2) as (d1 & d2 & Ep). destruct (shape4_ok t d1 d2 Ht Ep) as [E _].
  destruct (trace12 t _ _ _ _ E) as (A & B & C). split; [exact A|]. split; [exact B|].
  intros a b Ha Hb. rewrite C by auto. rewrite trA_one by auto. rewrite Ep. reflexivity.
Qed.

(** ** The cached remainders *)
Definition lrem (p : list (nd K)) (r : nd K) : Prop :=
  exists m, bonds p 1 m /\ shp r = [1; m] /\ ndwf r /\ forall c, c < m -> get r [0; c] = trA p 0 c.
Definition rrem (q : list (nd K)) (r : nd K) : Prop :=
  exists m, bonds q m 1 /\ shp r = [m; 1] /\ ndwf r /\ forall c, c < m -> get r [c; 0] = trA q c 0.
Definition cache_ok (ts : list (nd K)) (left : bool) (d : list (nat * nd K)) : Prop :=
  (exists r, assoc 0 d = Some r) /\
  forall k r, k <= length ts -> assoc k d = Some r ->
    if left then lrem (firstn k ts) r else rrem (skipn (length ts - k) ts) r.

Lemma matdot_mats (a b : nd K) m n k : shp a = [m; n] -> ndwf a -> shp b = [n; k] -> ndwf b ->
  matdot_py a b = Ok (matdot a b) /\ shp (matdot a b) = [m; k] /\ ndwf (matdot a b) /\
  forall i j, i < m -> j < k -> get (matdot a b) [i; j] = bigsum n (fun c => get a [i; c] * get b [c; j])%K.
Proof.
  intros Ea Wa Eb Wb. destruct (mat_lt b n k Eb Wb) as (Ob & Lb & Pb & Rb & Nb).
  destruct (matdot_left a b m n Ea Wa Ob Lb) as (A & O & L & P & R & N).
  assert (Es : shp (matdot a b) = [m; k]) by (rewrite (lt_ok_shp _ O), L, P, R, Pb, Rb; reflexivity).
  split; [exact A|]. split; [exact Es|]. split; [apply O|].
  intros i j Hi Hj. destruct (mat_lt (matdot a b) m k Es (proj1 O)) as (_ & _ & _ & _ & Nm).
  rewrite <- Nm. rewrite N; [|lia|rewrite Pb; constructor|lia]. apply bigsum_ext. intros c _. rewrite Nb. reflexivity.
Qed.

Lemma firstn_S (A : Type) n (l : list A) d : n < length l -> firstn (S n) l = firstn n l ++ [nth n l d].
Proof.
  revert l. induction n as [|n IH]; intros [|x l] H; cbn in H; try lia; [reflexivity|].
  cbn [firstn nth app]. f_equal. apply IH. lia.
Qed.
Lemma skipn_nth (A : Type) n (l : list A) d : n < length l -> skipn n l = nth n l d :: skipn (S n) l.
Proof.
  revert l. induction n as [|n IH]; intros [|x l] H; cbn in H; try lia; [reflexivity|].
  cbn [skipn nth]. apply IH. lia.
Qed.

Lemma get_remainder_spec (ts : list (nd K)) left n : forall d, bonds ts 1 1 -> two_legs (map pdims ts) -> n <= length ts -> cache_ok ts left d ->
  exists r d', get_remainder ts left d n = Ok (r, d') /\ cache_ok ts left d' /\
    if left then lrem (firstn n ts) r else rrem (skipn (length ts - n) ts) r.
Proof.
  induction n as [|n IH]; intros d Hb H2 Hn [[r0 H0] Hd].
  - cbn [get_remainder]. rewrite H0. exists r0, d. split; [reflexivity|]. split; [split; eauto|]. apply Hd; [lia|exact H0].
  - cbn [get_remainder]. destruct (assoc (S n) d) as [r|] eqn:E.
    + exists r, d. split; [reflexivity|]. split; [split; eauto|]. apply Hd; auto.
    + destruct (IH d Hb H2) as (r & d' & Er & Hd' & Hr); [lia|split; eauto|]. rewrite Er. cbn [bind fst snd].
      assert (Hbt : forall k, k < length ts -> lt_ok (nth k ts dummy) /\ length (pdims (nth k ts dummy)) = 2).
      { intros k Hk. pose proof (bonds_ok _ _ _ Hb) as F. rewrite Forall_forall in F. split; [apply F; apply nth_In; auto|].
        unfold two_legs in H2. rewrite Forall_forall in H2. apply H2. apply in_map. apply nth_In; auto. }
      destruct left.
      * rewrite (pyget_in _ ts n dummy) by lia. cbn [bind].
        destruct (Hbt n ltac:(lia)) as [Ot Lt]. destruct (trace_mat _ Ot Lt) as (Sa & Wa & Na).
        destruct Hr as (m & Bm & Sr & Wr & Nr).
        assert (Hbn : bonds (firstn (S n) ts) 1 (rdim (nth n ts dummy)) /\ ldim (nth n ts dummy) = m).
        { rewrite <- (firstn_skipn (S n) ts), (firstn_S _ n ts dummy) in Hb by lia. rewrite (firstn_S _ n ts dummy) by lia.
          apply bonds_app in Hb. destruct Hb as (m1 & Hb1 & _). pose proof Hb1 as Hb1'. apply bonds_app in Hb1. destruct Hb1 as (m2 & Hb2 & Hb3).
          cbn [bonds] in Hb3. destruct Hb3 as (_ & E3 & E4). subst m1. split; [exact Hb1'|].
          destruct (firstn n ts) as [|t0 p] eqn:Ef.
          - cbn in Hb2, Bm. lia.
          - rewrite E3. eapply bonds_r_unique; [|exact Hb2|exact Bm]. discriminate. }
        destruct Hbn as [Hbn El].
        rewrite El in Sa. destruct (matdot_mats r _ 1 m _ Sr Wr Sa Wa) as (Em & Sm & Wm & Nm). rewrite Em. cbn [bind].
        assert (L : lrem (firstn (S n) ts) (matdot r (trace_axes (nth n ts dummy) 1 2))).
        { exists (rdim (nth n ts dummy)). split; [exact Hbn|]. split; [exact Sm|]. split; [exact Wm|].
          intros c Hc. rewrite Nm by auto. rewrite (firstn_S _ n ts dummy) by lia. rewrite (trA_app _ _ 1 m) by auto.
          apply bigsum_ext. intros e He. rewrite Nr by auto. rewrite Na by (auto; lia). reflexivity. }
        eexists _, _. split; [reflexivity|]. split; [|exact L].
        destruct Hd' as [[q0 Hq0] Hd']. split; [exists q0; exact Hq0|]. intros k q Hk. cbn [assoc].
        destruct (Nat.eqb_spec k (S n)) as [->|Nk]; [|apply Hd'; auto]. intros Eq. injection Eq as <-. exact L.
      * replace (pyget ts (- Z.of_nat (S n))) with (Ok (nth (length ts - S n) ts dummy) : res (nd K)).
        2:{ unfold pyget, pyidx. destruct (Z.leb_spec 0 (- Z.of_nat (S n))); [lia|].
            destruct (Z.leb_spec 0 (- Z.of_nat (S n) + Z.of_nat (length ts))); [|lia].
            replace (Z.to_nat (- Z.of_nat (S n) + Z.of_nat (length ts))) with (length ts - S n) by lia.
            rewrite (nth_error_nth' ts dummy) by lia. reflexivity. }
        cbn [bind]. set (i := length ts - S n) in *.
        destruct (Hbt i ltac:(lia)) as [Ot Lt]. destruct (trace_mat _ Ot Lt) as (Sa & Wa & Na).
        replace (length ts - n) with (S i) in Hr by lia. destruct Hr as (m & Bm & Sr & Wr & Nr).
        assert (Hbn : bonds (skipn i ts) (ldim (nth i ts dummy)) 1 /\ rdim (nth i ts dummy) = m).
        { pose proof Hb as Hb0. rewrite <- (firstn_skipn i ts), (skipn_nth _ i ts dummy) in Hb0 by lia. rewrite (skipn_nth _ i ts dummy) by lia.
          apply bonds_app in Hb0. destruct Hb0 as (m1 & _ & Hb1). pose proof Hb1 as Hb1'. cbn [bonds] in Hb1. destruct Hb1 as (O1 & E1 & Hb1).
          subst m1. split; [exact Hb1'|]. destruct (skipn (S i) ts) as [|t0 q]; [cbn in Hb1, Bm; lia|].
          destruct Bm as (_ & <- & _). destruct Hb1 as (_ & <- & _). reflexivity. }
        destruct Hbn as [Hbn El].
        rewrite El in Sa. destruct (matdot_mats _ r _ m 1 Sa Wa Sr Wr) as (Em & Sm & Wm & Nm). rewrite Em. cbn [bind].
        assert (L : rrem (skipn i ts) (matdot (trace_axes (nth i ts dummy) 1 2) r)).
        { exists (ldim (nth i ts dummy)). split; [exact Hbn|]. split; [exact Sm|]. split; [exact Wm|].
          intros c Hc. rewrite Nm by auto. rewrite (skipn_nth _ i ts dummy) by lia.
          change (nth i ts dummy :: skipn (S i) ts) with ([nth i ts dummy] ++ skipn (S i) ts).
          rewrite (trA_app [nth i ts dummy] _ (ldim (nth i ts dummy)) m) by (auto; cbn [bonds]; auto).
          apply bigsum_ext. intros e He. rewrite Nr by auto. rewrite Na by (auto; lia). reflexivity. }
        eexists _, _. split; [reflexivity|]. split; [|exact L].
        destruct Hd' as [[q0 Hq0] Hd']. split; [exists q0; exact Hq0|]. intros k q Hk. cbn [assoc].
        destruct (Nat.eqb_spec k (S n)) as [->|Nk]; [|apply Hd'; auto]. intros Eq. injection Eq as <-. exact L.
Qed.

(** ** The window *)
Lemma amp_head (L t : nd K) w is l b : shp L = [1; l] -> ndwf L -> lt_ok t -> ldim t = l -> Forall2 inr is (map pdims (t :: w)) ->
  amp (matdot L t :: w) is 0 b = bigsum l (fun c => get L [0%nat; c] * amp (t :: w) is c b)%K.
Proof.
  intros SL WL Ot El Hi. destruct (matdot_left L t 1 l SL WL Ot El) as (_ & _ & _ & _ & Er & N).
  inversion Hi as [|i p is' ps Hi1 Hi2]; subst. rewrite amp_cons, Er.
  rewrite (bigsum_ext (rdim t) _ (fun c => bigsum (ldim t) (fun e => get L [0%nat; e] * (ent t e i c * amp w is' c b)))%K).
  - rewrite bigsum_swap. apply bigsum_ext. intros e _. rewrite bigsum_mul_l, amp_cons. reflexivity.
  - intros c Hc. rewrite N by (auto; lia). rewrite <- bigsum_mul_r. apply bigsum_ext. intros e _. ring.
Qed.
Lemma amp_tail (R u : nd K) v is i l m r a : shp R = [r; 1] -> ndwf R -> lt_ok u -> ldim u = m -> rdim u = r -> bonds v l m -> a < l ->
  length is = length v -> inr i (pdims u) ->
  amp (v ++ [matdot u R]) (is ++ [i]) a 0 = bigsum r (fun d => amp (v ++ [u]) (is ++ [i]) a d * get R [d; 0%nat])%K.
Proof.
  intros SR WR Ou El Er Hv Ha Li Hi. destruct (matdot_right u R r 1 SR WR Ou Er) as (_ & _ & El' & _ & Er' & N).
  rewrite (amp_app v [matdot u R] is [i] a 0 l m) by auto.
  rewrite (bigsum_ext _ _ (fun c => bigsum r (fun d => amp v is a c * amp [u] [i] c d * get R [d; 0%nat])))%K.
  - rewrite bigsum_swap. apply bigsum_ext. intros d Hd. rewrite bigsum_mul_r. rewrite (amp_app v [u] is [i] a d l m) by auto. reflexivity.
  - intros c Hc. rewrite amp_one by lia. rewrite N by (auto; lia). rewrite <- bigsum_mul_l. apply bigsum_ext. intros d Hd.
    rewrite amp_one by lia. ring.
Qed.

(** [z] is the partial trace of [x] over the sites before [s] and from [e] on. *)
Definition is_ptrace (x : ltens K) (w : nat * nat) (z : ltens K) : Prop :=
  let s := fst w in let e := snd w in
  mpa_ok z /\ mshape z = firstn (e - s) (skipn s (mshape x)) /\ ranks z = firstn (e - s - 1) (skipn s (ranks x)) /\
  canonical_form z = (0%Z, Z.of_nat (e - s)) /\
  forall is, valid_idx is (mshape z) ->
    entry z is = msum (firstn s (diagd (mshape x))) (fun ks => msum (skipn e (diagd (mshape x))) (fun ms =>
      entry x (pairs ks ks ++ is ++ pairs ms ms))).

Lemma ranks_window (p w q : list (nd K)) t s e : length p = s -> S (length w) = e - s ->
  map ldim w = firstn (e - s - 1) (skipn s (map ldim (tl (p ++ t :: w ++ q)))).
Proof.
  intros Lp Lw. rewrite map_tl', map_app. cbn [map]. rewrite map_app.
  destruct p as [|p0 p]; cbn [map app tl length] in *.
  - subst s. cbn [skipn]. symmetry. apply firstn_len_app. rewrite map_length. lia.
  - replace (map ldim p ++ ldim t :: map ldim w ++ map ldim q) with ((map ldim p ++ [ldim t]) ++ map ldim w ++ map ldim q)
      by (rewrite <- app_assoc; reflexivity).
    rewrite skipn_len_app by (rewrite app_length, map_length; cbn [length]; lia).
    symmetry. apply firstn_len_app. rewrite map_length. lia.
Qed.
Lemma pairs_diag_valid (ps : list (list nat)) ks : two_legs ps -> inr ks (diagd ps) -> Forall2 inr (pairs ks ks) ps.
Proof.
  intros H. revert ks. induction ps as [|p ps IH]; intros ks Hk.
  - inversion Hk; subst. constructor.
  - destruct (two_legs_cons _ _ H) as (s & a & -> & H'). cbn [diagd map nth] in Hk. apply inr_cons_inv in Hk.
    destruct Hk as (k & ks' & -> & Hk & Hk'). cbn. constructor; [|apply IH; auto]. apply inr2; lia.
Qed.

Theorem red_mpo_window_spec (x : ltens K) w cs : mpa_ok x -> two_legs (mshape x) -> win_ok (llen x) w ->
  cache_ok (lts x) true (fst cs) -> cache_ok (lts x) false (snd cs) ->
  exists z cs', red_mpo_window (lts x) cs (zwin w) = Ok (z, cs') /\ is_ptrace x w z /\
    cache_ok (lts x) true (fst cs') /\ cache_ok (lts x) false (snd cs').
Proof.
  destruct w as [s e]. destruct cs as [dl dr]. intros Hx H2 [Hw1 Hw2] Hl Hr. cbn [fst snd] in *. pose proof Hx as [Hne Hb].
  unfold red_mpo_window, zwin. cbn [fst snd]. cbv zeta.
  destruct (list_window _ (lts x) s e) as (p & t & w & q & Ets & Lp & Lw). { change (s < e <= llen x). lia. }
  assert (Efp : firstn s (lts x) = p) by (rewrite Ets; apply firstn_len_app; auto).
  assert (Esq : skipn e (lts x) = q).
  { rewrite Ets. change (p ++ t :: w ++ q) with (p ++ (t :: w) ++ q). rewrite app_assoc. apply skipn_len_app.
    rewrite app_length. cbn [length]. lia. }
  destruct (get_remainder_spec (lts x) true s dl Hb H2) as (L & dl' & EL & Hdl & HL); [change (s <= llen x); lia|exact Hl|].
  unfold get_remainder_z. rewrite (proj2 (Z.ltb_ge _ _)) by lia. rewrite Nat2Z.id, EL. cbn [bind fst snd].
  rewrite Efp in HL. destruct HL as (ml & Bl & SL & WL & NL).
  replace (pyslice (lts x) (Z.of_nat s) (Z.of_nat e)) with (t :: w).
  2:{ rewrite Ets. change (p ++ t :: w ++ q) with (p ++ (t :: w) ++ q). symmetry. apply pyslice_mid; cbn [length]; lia. }
  change (pyget (t :: w) 0) with (Ok t). cbn [bind].
  assert (Hbs := Hb). rewrite Ets in Hbs. change (p ++ t :: w ++ q) with (p ++ (t :: w) ++ q) in Hbs.
  apply bonds_app in Hbs. destruct Hbs as (m & Bp & Hbs). apply bonds_app in Hbs. destruct Hbs as (m' & Bw & Bq).
  assert (ml = m).
  { destruct p as [|p0 p']; [cbn in Bp, Bl; lia|]. eapply bonds_r_unique; [|exact Bl|exact Bp]. discriminate. }
  subst ml.
  pose proof Bw as Bw'. cbn [bonds] in Bw. destruct Bw as (Ot & Elt & Bw).
  destruct (matdot_left L t 1 m SL WL Ot Elt) as (E1 & O1 & L1 & P1 & R1 & N1). rewrite E1. cbn [bind].
  rewrite set_nth_0. change (Z.of_nat (length (lts x)) - Z.of_nat e)%Z with (Z.of_nat (llen x) - Z.of_nat e)%Z.
  replace (Z.of_nat (llen x) - Z.of_nat e)%Z with (Z.of_nat (llen x - e)) by lia.
  destruct (get_remainder_spec (lts x) false (llen x - e) dr Hb H2) as (R & dr' & ER & Hdr & HR); [unfold llen; lia|exact Hr|].
  rewrite (proj2 (Z.ltb_ge _ _)) by lia. rewrite Nat2Z.id, ER. cbn [bind fst snd].
  change (length (lts x)) with (llen x) in HR. replace (llen x - (llen x - e)) with e in HR by lia. rewrite Esq in HR.
  destruct HR as (mr & Br & SR & WR & NR).
  assert (Emr : mr = m').
  { destruct q as [|q0 q']; [cbn in Bq, Br; lia|]. destruct Bq as (_ & <- & _). destruct Br as (_ & <- & _). reflexivity. }
  subst mr.
  assert (B1 : bonds (matdot L t :: w) 1 m') by (cbn [bonds]; rewrite R1; auto).
  destruct (exists_last (l := matdot L t :: w) ltac:(discriminate)) as (v & u & Ev).
  assert (Lv : length v = length w) by (apply (f_equal (@length (nd K))) in Ev; rewrite app_length in Ev; cbn in Ev; lia).
  rewrite Ev. rewrite pyget_last. cbn [bind].
  pose proof B1 as B2. rewrite Ev in B2. apply bonds_app in B2. destruct B2 as (m2 & Bv & Bu). cbn [bonds] in Bu. destruct Bu as (Ou & Elu & Eru).
  destruct (matdot_right u R m' 1 SR WR Ou Eru) as (E2 & O2 & L2 & P2 & R2 & N2). rewrite E2. cbn [bind].
  rewrite (set_nth_last _ (matdot u R) u v) by (rewrite app_length; cbn [length]; lia).
  assert (Bz : bonds (v ++ [matdot u R]) 1 1).
  { apply bonds_app. exists m2. split; [exact Bv|]. cbn [bonds]. rewrite L2, R2. auto. }
  destruct (mpa_new_chain (v ++ [matdot u R])) as (z & Ez & Hz & Tz & Lz & Rz); [destruct v; discriminate|exact Bz|].
  rewrite Ez. cbn [bind]. eexists z, _. split; [reflexivity|]. cbn [fst snd]. split; [|split; [exact Hdl|exact Hdr]].
  assert (Pz : map pdims (v ++ [matdot u R]) = map pdims (t :: w)).
  { transitivity (map pdims (v ++ [u])).
    - rewrite !map_app. cbn [map]. rewrite P2. reflexivity.
    - rewrite <- Ev. cbn [map]. rewrite P1. reflexivity. }
  assert (Mx : mshape x = map pdims p ++ map pdims (t :: w) ++ map pdims q).
  { unfold mshape. rewrite Ets. change (p ++ t :: w ++ q) with (p ++ (t :: w) ++ q). rewrite !map_app. reflexivity. }
  assert (Mz : mshape z = map pdims (t :: w)) by (unfold mshape; rewrite Tz; exact Pz).
  split; [exact Hz|]. cbn [fst snd]. split.
  { rewrite Mz, Mx. rewrite skipn_len_app by (rewrite map_length; lia). symmetry. apply firstn_len_app. rewrite map_length. cbn [length]. lia. }
  split.
  { unfold ranks. rewrite Tz, Ets. rewrite <- (ranks_window p w q t s e Lp Lw). transitivity (map ldim (tl (v ++ [u]))); [|rewrite <- Ev; reflexivity].
    destruct v as [|v0 v']; cbn [app tl]; [reflexivity|]. rewrite !map_app. cbn [map]. rewrite L2. reflexivity. }
  split.
  { unfold canonical_form. rewrite Lz, Rz. rewrite app_length, Lv. cbn [length]. f_equal. lia. }
  intros is Hi. rewrite entry_amp by auto. rewrite Tz. unfold valid_idx in Hi. rewrite Mz in Hi.
  assert (Dp : firstn s (diagd (mshape x)) = diagd (map pdims p)).
  { unfold diagd. rewrite firstn_map. rewrite Mx. rewrite firstn_len_app by (rewrite map_length; lia). reflexivity. }
  assert (Dq : skipn e (diagd (mshape x)) = diagd (map pdims q)).
  { unfold diagd. rewrite skipn_map, Mx, app_assoc. rewrite skipn_len_app; [reflexivity|]. rewrite app_length, !map_length. cbn [length]. lia. }
  rewrite Dp, Dq.
  assert (H2s := H2). rewrite Mx in H2s. apply two_legs_app in H2s. destruct H2s as [H2p H2s]. apply two_legs_app in H2s. destruct H2s as [H2w H2q].
  transitivity (bigsum m (fun c => bigsum m' (fun d => trA p 0%nat c * amp (t :: w) is c d * trA q d 0%nat)))%K.
  - destruct (exists_last (l := is)) as (is' & i & Ei).
    { intros ->. inversion Hi. }
    assert (Li : length is = S (length w)) by (apply Forall2_len in Hi; rewrite map_length in Hi; exact Hi).
    rewrite Ei, app_length in Li. cbn [length] in Li.
    assert (Hlast : inr i (pdims u)).
    { rewrite <- Pz, Ei, map_app in Hi. cbn [map] in Hi. apply Forall2_app_inv_l in Hi. destruct Hi as (A1 & A2 & HA1 & HA2 & EA).
      inversion HA2 as [|? ? ? ? Hi' HA2' X1 X2]; subst. inversion HA2'; subst. apply app_inj_tail in EA. destruct EA as [_ EA].
      rewrite P2 in EA. rewrite EA. exact Hi'. }
    rewrite Ei. rewrite (amp_tail R u v is' i 1 m2 m') by (auto; lia). rewrite <- Ev, <- Ei.
    rewrite bigsum_swap. apply bigsum_ext. intros d Hd. rewrite (amp_head L t w is m) by auto.
    rewrite <- bigsum_mul_r. apply bigsum_ext. intros c Hc. rewrite NL, NR by auto. reflexivity.
  - symmetry.
    rewrite (msum_ext _ _ (fun ks => bigsum m (fun c => bigsum m' (fun d => amp p (pairs ks ks) 0%nat c * amp (t :: w) is c d * trA q d 0%nat))))%K.
    + rewrite msum_bigsum_swap. apply bigsum_ext. intros c _. rewrite msum_bigsum_swap. apply bigsum_ext. intros d _.
      rewrite !msum_mul_r. reflexivity.
    + intros ks Hk.
      rewrite (msum_ext _ _ (fun ms => bigsum m (fun c => bigsum m' (fun d => amp p (pairs ks ks) 0%nat c * amp (t :: w) is c d * amp q (pairs ms ms) d 0%nat))))%K.
      * rewrite msum_bigsum_swap. apply bigsum_ext. intros c _. rewrite msum_bigsum_swap. apply bigsum_ext. intros d _.
        rewrite !msum_mul_l. reflexivity.
      * intros ms Hm. rewrite entry_amp; auto.
        2:{ unfold valid_idx. rewrite Mx. apply Forall2_app; [apply pairs_diag_valid; auto|]. apply Forall2_app; [exact Hi|apply pairs_diag_valid; auto]. }
        rewrite Ets. change (p ++ t :: w ++ q) with (p ++ (t :: w) ++ q).
        apply len_diagd in Hk. rewrite (amp_app p _ _ _ 0 0 1 m) by (auto; rewrite pairs_length; auto).
        apply bigsum_ext. intros c Hc. apply Forall2_len in Hi. rewrite map_length in Hi.
        rewrite (amp_app (t :: w) q is _ c 0 m m') by auto. rewrite <- bigsum_mul_l. apply bigsum_ext. intros d _. ring.
Qed.

Theorem red_mpo_loop_spec (x : ltens K) ws : forall cs, mpa_ok x -> two_legs (mshape x) -> Forall (win_ok (llen x)) ws ->
  cache_ok (lts x) true (fst cs) -> cache_ok (lts x) false (snd cs) ->
  exists zs, red_mpo_loop (lts x) cs (map zwin ws) = Ok zs /\ Forall2 (is_ptrace x) ws zs.
Proof.
  induction ws as [|w ws IH]; intros cs Hx H2 Hw Hl Hr; cbn [map red_mpo_loop].
  - exists []. split; [reflexivity|constructor].
  - apply Forall_cons_iff in Hw. destruct Hw as [Hw Hws].
    destruct (red_mpo_window_spec x w cs Hx H2 Hw Hl Hr) as (z & cs' & Ez & Iz & Hl' & Hr'). rewrite Ez. cbn [bind fst snd].
    destruct (IH cs' Hx H2 Hws Hl' Hr') as (zs & Ezs & Izs). rewrite Ezs. cbn [bind].
    exists (z :: zs). split; [reflexivity|constructor; auto].
Qed.

Theorem reductions_mpo_spec (x : ltens K) width starts stops ws : mpa_ok x -> two_legs (mshape x) ->
  check_reductions_args (llen x) width starts stops = Ok (map zwin ws) -> Forall (win_ok (llen x)) ws ->
  exists zs, reductions_mpo x width starts stops = Ok zs /\ Forall2 (is_ptrace x) ws zs.
Proof.
  intros Hx H2 E Hw. unfold reductions_mpo. rewrite E. cbn [bind].
  rewrite (ndims_legs x 2 Hx H2 : forallb (fun d => (d =? 2)%Z) (ndims x) = true). cbn [passert]. cbv zeta.
  pose proof Hx as [_ Hb].
  apply red_mpo_loop_spec; auto; cbn [fst snd]; (split; [eexists; reflexivity|]); intros k r Hk; cbn [assoc];
    destruct (Nat.eqb_spec k 0) as [->|]; try discriminate; intros Eq; injection Eq as <-.
  - exists 1. split; [reflexivity|]. split; [reflexivity|]. split; [reflexivity|]. intros c Hc. assert (c = 0) by lia. subst. reflexivity.
  - rewrite Nat.sub_0_r, skipn_all. exists 1. split; [reflexivity|]. split; [reflexivity|]. split; [reflexivity|].
    intros c Hc. assert (c = 0) by lia. subst. reflexivity.
Qed.
Theorem reductions_mpo_error (x : ltens K) width starts stops ws : mpa_ok x -> ~ two_legs (mshape x) ->
  check_reductions_args (llen x) width starts stops = Ok ws -> reductions_mpo x width starts stops = Err AssertionError.
Proof.
  intros Hx H2 E. unfold reductions_mpo. rewrite E. cbn [bind].
  rewrite (ndims_legs_not x 2 Hx H2 : forallb (fun d => (d =? 2)%Z) (ndims x) = false). reflexivity.
Qed.
End RedMpo.
