(** Facts about factory.py: constant arrays and the shapes of generated arrays. *)
From Verif Require Export Factory PfStates PfBounds PfKron.
Open Scope nat_scope.

Section Gen.
Context {K : StarRing}.
Add Ring Kr : (k_ring K).

(** Every draw has the requested shape. *)
Definition stream_ok (s : stream (K:=K)) : Prop := forall k sh, shp (s k sh) = sh /\ ndwf (s k sh).

Definition gen_ts (func : stream (K:=K)) (b : list nat) (s : nat) (dims : list (list nat)) : list (nd K) :=
  map (fun p => func (fst p) (nth (fst p) b 0 :: snd p ++ [nth (S (fst p)) b 0])) (combine (seq s (length dims)) dims).

Lemma gen_ts_cons func b s p dims : gen_ts func b s (p :: dims) = func s (nth s b 0 :: p ++ [nth (S s) b 0]) :: gen_ts func b (S s) dims.
Proof. reflexivity. Qed.
Lemma gen_bonds func b dims : stream_ok func -> forall s, bonds (gen_ts func b s dims) (nth s b 0) (nth (s + length dims) b 0).
Proof.
  intros Hf. induction dims as [|p dims IH]; intros s.
  - cbn. rewrite Nat.add_0_r. reflexivity.
  - rewrite gen_ts_cons. cbn [bonds length]. destruct (Hf s (nth s b 0 :: p ++ [nth (S s) b 0])) as [Es W].
    split; [apply (lt_ok_mk _ _ _ _ W Es)|]. split; [apply (ldim_mk _ _ _ Es)|]. rewrite (rdim_mk _ _ _ _ Es).
    rewrite <- Nat.add_succ_comm. apply IH.
Qed.
Lemma gen_pdims func b dims : stream_ok func -> forall s, map pdims (gen_ts func b s dims) = dims.
Proof.
  intros Hf. induction dims as [|p dims IH]; intros s; [reflexivity|]. rewrite gen_ts_cons. cbn [map]. rewrite IH. f_equal.
  destruct (Hf s (nth s b 0 :: p ++ [nth (S s) b 0])) as [Es _]. apply (pdims_mk _ _ _ _ Es).
Qed.
Lemma gen_ldims func b dims : stream_ok func -> forall s, map ldim (gen_ts func b s dims) = map (fun k => nth k b 0) (seq s (length dims)).
Proof.
  intros Hf. induction dims as [|p dims IH]; intros s; [reflexivity|]. rewrite gen_ts_cons. cbn [map length seq]. rewrite IH. f_equal.
  destruct (Hf s (nth s b 0 :: p ++ [nth (S s) b 0])) as [Es _]. apply (ldim_mk _ _ _ Es).
Qed.
Lemma gen_len func b dims s : length (gen_ts func b s dims) = length dims.
Proof. unfold gen_ts. rewrite map_length, combine_length, seq_length. lia. Qed.
Lemma gen_pos func b dims : stream_ok func -> Forall (fun p => 0 < size p) dims -> Forall (fun r => 0 < r) b -> forall s, s + length dims < length b ->
  Forall (fun t => 0 < size (shp t)) (gen_ts func b s dims).
Proof.
  intros Hf Hd Hb. induction Hd as [|p dims Hp Hd IH]; intros s Hs; [constructor|]. rewrite gen_ts_cons. cbn [length] in Hs. constructor; [|apply IH; lia].
  destruct (Hf s (nth s b 0 :: p ++ [nth (S s) b 0])) as [-> _]. rewrite size_cons, size_app, size_single.
  rewrite Forall_forall in Hb. assert (0 < nth s b 0) by (apply Hb, nth_In; lia). assert (0 < nth (S s) b 0) by (apply Hb, nth_In; lia). nia.
Qed.
Lemma mapnth_mid (rks : list nat) n : length rks + 1 = n -> map (fun k => nth k (1 :: rks ++ [1]) 0) (seq 1 (n - 1)) = rks.
Proof.
  intros H. replace (n - 1) with (length rks) by lia. rewrite <- seq_shift, map_map. cbn [nth].
  transitivity (map (fun k => nth k rks 0) (seq 0 (length rks))); [|symmetry; apply list_as_map; reflexivity].
  apply map_ext_in. intros k Hk. apply in_seq in Hk. apply app_nth1. lia.
Qed.

(** The bond dimensions of a generated array: those asked for, cut at the largest
    sensible ones unless [force_rank]. *)
Definition asked_ranks (sites : nat) (rank : rankarg) : list nat :=
  match rank with RkInt r => repeat r (sites - 1) | RkList l => l end.
Definition gen_ranks (sites : nat) (dims : list (list nat)) (rank : rankarg) (force_rank : bool) : list nat :=
  if force_rank then asked_ranks sites rank else zip2 Nat.min (asked_ranks sites rank) (full_rank dims).
Lemma zip2_combine (A B C : Type) (f : A -> B -> C) l : forall m, map (fun p => f (fst p) (snd p)) (combine l m) = zip2 f l m.
Proof. induction l as [|x l IH]; intros [|y m]; cbn; try reflexivity. f_equal. apply IH. Qed.
Lemma full_rank_len dims : length (full_rank dims) = length dims - 1.
Proof. unfold full_rank. rewrite map_length, seq_length. reflexivity. Qed.

Theorem generate_spec sites ldim rank func force dims :
  stream_ok func -> 0 < sites -> site_dims sites ldim = Ok dims -> length dims = sites -> length (asked_ranks sites rank) + 1 = sites ->
  exists z, generate sites ldim rank func force = Ok z /\ mpa_ok z /\ mshape z = dims /\ ranks z = gen_ranks sites dims rank force /\
    canonical_form z = (0%Z, Z.of_nat sites) /\ canon_true z /\
    lts z = gen_ts func (1 :: gen_ranks sites dims rank force ++ [1]) 0 dims /\
    (Forall (fun p => 0 < size p) dims -> Forall (fun r => 0 < r) (gen_ranks sites dims rank force) -> mpa_pos z).
Proof.
  intros Hf Hs Ed Hl Hr. unfold generate. rewrite Ed. cbn [bind].
  set (rk := if force then _ else _).
  assert (Erk : rk = gen_ranks sites dims rank force).
  { unfold rk, gen_ranks. destruct force; [destruct rank; reflexivity|]. rewrite (zip2_combine nat nat nat Nat.min). destruct rank; reflexivity. }
  rewrite Erk. set (g := gen_ranks sites dims rank force).
  assert (Lg : length g + 1 = sites).
  { unfold g, gen_ranks. destruct force; [exact Hr|]. rewrite zip2_length; rewrite ?full_rank_len; lia. }
  rewrite (proj2 (Nat.eqb_eq _ _) Hl), (proj2 (Nat.eqb_eq _ _) Lg). cbn [passert]. fold (gen_ts func (1 :: g ++ [1]) 0 dims).
  assert (HB : bonds (gen_ts func (1 :: g ++ [1]) 0 dims) 1 1).
  { pose proof (gen_bonds func (1 :: g ++ [1]) dims Hf 0) as HB. assert (En : nth (0 + length dims) (1 :: g ++ [1]) 0 = 1); [|rewrite En in HB; exact HB].
    rewrite Hl. destruct sites as [|n]; [lia|]. cbn [Nat.add nth]. rewrite app_nth2 by lia. replace (n - length g) with 0 by lia. reflexivity. }
  assert (Hne : gen_ts func (1 :: g ++ [1]) 0 dims <> []).
  { intros E. apply (f_equal (@length _)) in E. rewrite gen_len in E. cbn in E. lia. }
  rewrite (mpa_new_ok _ _ _ Hne HB). eexists. split; [reflexivity|]. split; [split; assumption|].
  split; [unfold mshape; cbn [lts]; apply gen_pdims; exact Hf|].
  split. { unfold ranks. cbn [lts]. rewrite map_tl', gen_ldims by exact Hf. rewrite Hl. destruct sites as [|n]; [lia|]. cbn [seq map tl]. replace n with (S n - 1) by lia. apply mapnth_mid. exact Lg. }
  split; [unfold canonical_form; cbn [lcan rcan]; rewrite gen_len, Hl; reflexivity|].
  split. { split; intros k Hk Hk'; unfold llen in Hk'; cbn [lcan rcan lts] in *; lia. }
  split; [reflexivity|]. intros Hd Hg. split; [split; assumption|]. cbn [lts]. apply gen_pos; auto.
  - constructor; [lia|]. apply Forall_app. auto.
  - cbn [length]. rewrite app_length. cbn. lia.
Qed.
(** Wrong number of sites or ranks. *)
Theorem generate_error sites ldim rank func force dims :
  site_dims sites ldim = Ok dims ->
  length dims <> sites \/ (length (asked_ranks sites rank) + 1 < sites \/ force = true /\ length (asked_ranks sites rank) + 1 <> sites) \/ sites = 0 ->
  generate (K:=K) sites ldim rank func force = Err AssertionError.
Proof.
  intros Ed H. unfold generate. rewrite Ed. cbn [bind].
  destruct (Nat.eqb_spec (length dims) sites) as [Hl|Hl]; [|reflexivity]. cbn [passert].
  set (rk := if force then _ else _). destruct (Nat.eqb_spec (length rk + 1) sites) as [Hk|Hk]; [|reflexivity]. exfalso.
  assert (E : length rk = length (asked_ranks sites rank) \/ force = false /\ length rk <= length (asked_ranks sites rank)).
  { unfold rk. destruct force; [left; destruct rank; reflexivity|right]. split; [reflexivity|]. rewrite map_length, combine_length. destruct rank; cbn [asked_ranks]; lia. }
  destruct H as [H|[[H|[Hf H]]|H]]; [contradiction| | |lia].
  - destruct E as [E|[_ E]]; lia.
  - destruct E as [E|[E _]]; [lia|congruence].
Qed.
Lemma min_pos l m : Forall (fun r => 0 < r) l -> Forall (fun r => 0 < r) m -> Forall (fun r => 0 < r) (zip2 Nat.min l m).
Proof. intros H. revert m. induction H as [|x l Hx H IH]; intros m Hm; destruct Hm; cbn; constructor; auto. lia. Qed.
Lemma full_rank_pos dims : Forall (fun p => 0 < size p) dims -> Forall (fun r => 0 < r) (full_rank dims).
Proof.
  intros H. assert (P : forall l, Forall (fun p => 0 < p) l -> 0 < size l) by (induction 1; [rewrite size_nil; lia|rewrite size_cons; nia]).
  assert (Hd : Forall (fun p => 0 < p) (map size dims)) by (rewrite Forall_map; exact H).
  unfold full_rank. rewrite Forall_map, Forall_forall. intros k _.
  assert (0 < size (firstn k (map size dims))) by (apply P; apply Forall_forall; intros x Hx; rewrite Forall_forall in Hd; apply Hd; rewrite <- (firstn_skipn k); apply in_or_app; left; exact Hx).
  assert (0 < size (skipn k (map size dims))) by (apply P; apply Forall_forall; intros x Hx; rewrite Forall_forall in Hd; apply Hd; rewrite <- (firstn_skipn k (map size dims)); apply in_or_app; right; exact Hx).
  lia.
Qed.
Lemma gen_ranks_pos sites dims rank force : Forall (fun p => 0 < size p) dims -> Forall (fun r => 0 < r) (asked_ranks sites rank) ->
  Forall (fun r => 0 < r) (gen_ranks sites dims rank force).
Proof. intros H1 H2. unfold gen_ranks. destruct force; [exact H2|]. apply min_pos; [exact H2|]. apply full_rank_pos. exact H1. Qed.

(** ** zero *)
Lemma zeros_ok : stream_ok (fun _ sh => zeros sh).
Proof. intros k sh. split; [reflexivity|apply wf_tab]. Qed.
Lemma get_zeros (sh idx : list nat) : get (zeros (K:=K) sh) idx = k0.
Proof.
  unfold zeros, tab, get. cbn [dat shp]. destruct (Nat.lt_ge_cases (ravel sh idx) (size sh)).
  - rewrite (map_nth_lt _ _ _ _ _ 0) by (rewrite seq_length; assumption). reflexivity.
  - apply nth_overflow. rewrite map_length, seq_length. assumption.
Qed.
Lemma amp_zeros b dims : forall s is a e, dims <> [] -> length is = length dims -> amp (gen_ts (fun _ sh => zeros (K:=K) sh) b s dims) is a e = k0.
Proof.
  destruct dims as [|p dims]; intros s is a e Hne L; [congruence|]. destruct is as [|i is]; [discriminate|]. rewrite gen_ts_cons. cbn [amp].
  apply bigsum_zero. intros c Hc. unfold ent. rewrite get_zeros. ring.
Qed.
Theorem zero_spec sites ldim rank force dims :
  0 < sites -> site_dims sites ldim = Ok dims -> length dims = sites -> length (asked_ranks sites rank) + 1 = sites ->
  exists z : ltens K, mpa_zero sites ldim rank force = Ok z /\ mpa_ok z /\ mshape z = dims /\ ranks z = gen_ranks sites dims rank force /\
    canonical_form z = (0%Z, Z.of_nat sites) /\ canon_true z /\
    forall is, valid_idx is dims -> entry z is = k0.
Proof.
  intros Hs Ed Hl Hr. destruct (generate_spec sites ldim rank _ force dims zeros_ok Hs Ed Hl Hr) as (z & Ez & Hz & Sz & Rz & Cz & Tz & Lz & _).
  exists z. split; [exact Ez|]. do 5 (split; [assumption|]). intros is Hi. rewrite entry_amp by (auto; rewrite Sz; exact Hi). rewrite Lz.
  apply amp_zeros; [intros ->; cbn in Hl; lia|exact (Forall2_len _ _ _ _ _ Hi)].
Qed.

(** ** eye *)
Lemma get_eye d i j : i < d -> j < d -> get (eye (K:=K) d) [i; j] = delta i j.
Proof. intros Hi Hj. unfold eye. rewrite get_tab by (apply inr2; assumption). reflexivity. Qed.
Lemma prod_eye ds : forall is js, inr is ds -> inr js ds ->
  kprod (zip2 (@get K) (map eye ds) (pairs is js)) = if list_eq_dec Nat.eq_dec is js then k1 else k0.
Proof.
  induction ds as [|d ds IH]; intros is js Hi Hj; inversion Hi as [|i ? is' ? Hi1 Hi2]; inversion Hj as [|j ? js' ? Hj1 Hj2]; subst.
  - destruct (list_eq_dec Nat.eq_dec [] []); [reflexivity|congruence].
  - change (pairs (i :: is') (j :: js')) with ([i; j] :: pairs is' js'). cbn [map zip2 kprod fold_right]. change (fold_right kmul k1) with (@kprod K).
    rewrite IH by assumption. rewrite get_eye by assumption.
    destruct (Nat.eq_dec i j) as [->|Hn].
    + rewrite delta_eq. destruct (list_eq_dec Nat.eq_dec is' js') as [->|Hn]; destruct (list_eq_dec Nat.eq_dec _ _) as [E|E]; try congruence; ring.
    + rewrite delta_neq by exact Hn. destruct (list_eq_dec Nat.eq_dec (i :: is') (j :: js')) as [E|E]; [congruence|]. ring.
Qed.
Definition eye_dims (sites : nat) (ldim : eyearg) : list nat := match ldim with EyeInt d => repeat d sites | EyeList ds => ds end.
Theorem eye_spec sites ldim : 0 < sites -> length (eye_dims sites ldim) = sites ->
  let ds := eye_dims sites ldim in
  exists z : ltens K, mpo_eye sites ldim = Ok z /\ mpa_ok z /\ mshape z = map (fun d => [d; d]) ds /\ Forall (fun r => r = 1) (ranks z) /\
    canonical_form z = (0%Z, Z.of_nat sites) /\
    forall is js, inr is ds -> inr js ds -> entry z (pairs is js) = if list_eq_dec Nat.eq_dec is js then k1 else k0.
Proof.
  intros Hs Hl ds.
  assert (E : mpo_eye (K:=K) sites ldim = from_kron (map eye ds)).
  { unfold ds, mpo_eye. destruct ldim as [d|l]; [reflexivity|]. cbn [eye_dims] in Hl. rewrite (proj2 (Nat.eqb_eq _ _) Hl). reflexivity. }
  rewrite E. fold ds in Hl. destruct (from_kron_spec (K:=K) (map eye ds)) as (z & Ez & Hz & Sz & Rz & Cz & Az).
  - destruct ds; [cbn in Hl; lia|discriminate].
  - rewrite Forall_map. apply Forall_forall. intros d _. apply wf_tab.
  - rewrite map_map in Sz. cbn [shp eye tab] in Sz. rewrite map_length, Hl in Cz. exists z. do 5 (split; [assumption|]).
    intros is js Hi Hj.
    assert (V : Forall2 inr (pairs is js) (map (fun d => [d; d]) ds)).
    { apply pairs_valid.
      - unfold two_legs. rewrite Forall_map. apply Forall_forall. reflexivity.
      - unfold leg1. rewrite map_map. cbn [nth]. rewrite map_id. exact Hi.
      - unfold leg2. rewrite map_map. cbn [nth]. rewrite map_id. exact Hj. }
    rewrite entry_amp by (auto; rewrite Sz; exact V). rewrite Az; [apply prod_eye; assumption|]. rewrite map_map. exact V.
Qed.
Theorem eye_error sites ldim : length (eye_dims sites ldim) <> sites \/ sites = 0 -> mpo_eye (K:=K) sites ldim = Err AssertionError.
Proof.
  intros H. unfold mpo_eye. destruct ldim as [d|l]; cbn [eye_dims] in H.
  - rewrite repeat_length in H. destruct H as [H| ->]; [congruence|reflexivity].
  - destruct (Nat.eqb_spec (length l) sites) as [E|E]; [|reflexivity]. destruct H as [H|H]; [contradiction|]. subst. destruct l; [reflexivity|discriminate].
Qed.

(** ** diagonal_mpa *)
Lemma left_iso_delta (t : nd K) d e : lt_ok t -> shp t = [e; d; d] -> (e = 1 \/ e = d) ->
  (forall a i b, a < e -> i < d -> b < d -> get t [a; i; b] = if Nat.eqb e 1 then delta i b else (delta a i * delta i b)%K) -> 0 < d -> left_iso t.
Proof.
  intros Ht Es He Hg Hd. assert (El : ldim t = e) by (unfold ldim; rewrite Es; reflexivity).
  assert (Er : rdim t = d) by (unfold rdim; rewrite Es; reflexivity). assert (Ep : pdims t = [d]) by (unfold pdims; rewrite Es; reflexivity).
  intros b b' Hb Hb'. rewrite Er in Hb, Hb'. rewrite El, Ep.
  transitivity (bigsum (K:=K) d (fun i => delta i b * delta i b')%K).
  - destruct (Nat.eqb_spec e 1) as [E1|E1].
    + rewrite E1. rewrite bigsum_1. cbn [msum]. apply bigsum_ext. intros i Hi. unfold ent. cbn [app]. rewrite !Hg by lia. rewrite delta_conj. reflexivity.
    + destruct He as [He|He]; [contradiction|]. rewrite He. cbn [msum]. rewrite bigsum_swap. apply bigsum_ext. intros i Hi.
      transitivity (bigsum (K:=K) d (fun a => delta i a * (delta i b * delta i b'))%K).
      * apply bigsum_ext. intros a Ha. unfold ent. cbn [app]. rewrite !Hg by lia. rewrite (kconj_mul K), !delta_conj. rewrite (delta_sym i a).
        assert (D : (delta a i * delta a i = delta (K:=K) a i)%K) by (destruct (Nat.eq_dec a i) as [->|Hn]; [rewrite delta_eq; ring|rewrite delta_neq by exact Hn; ring]).
        transitivity (delta (K:=K) a i * delta a i * (delta i b * delta i b'))%K; [ring|]. rewrite D. reflexivity.
      * apply (bigsum_delta_l d i (fun _ => (delta (K:=K) i b * delta i b')%K)). exact Hi.
  - transitivity (bigsum (K:=K) d (fun i => delta b i * delta i b')%K); [apply bigsum_ext; intros i Hi; rewrite (delta_sym i b); reflexivity|].
    apply (bigsum_delta_l d b (fun i => delta i b')). exact Hb.
Qed.

Lemma delta3_shape d : shp (delta3 (K:=K) d) = [d; d; d] /\ ndwf (delta3 (K:=K) d).
Proof. split; [reflexivity|apply wf_tab]. Qed.
Lemma get_delta3 d a i b : a < d -> i < d -> b < d -> get (delta3 (K:=K) d) [a; i; b] = (delta a i * delta i b)%K.
Proof. intros. unfold delta3. rewrite get_tab by (repeat constructor; assumption). reflexivity. Qed.
Lemma delta3_bonds d : lt_ok (delta3 (K:=K) d) /\ ldim (delta3 (K:=K) d) = d /\ rdim (delta3 (K:=K) d) = d /\ pdims (delta3 (K:=K) d) = [d].
Proof. destruct (delta3_shape d) as [E W]. split; [apply (lt_ok_mk _ d [d] d W E)|]. repeat split. Qed.
Lemma first_site d : let t := reshape (eye (K:=K) d) [1; d; d] in
  lt_ok t /\ ldim t = 1 /\ rdim t = d /\ pdims t = [d] /\ forall i b, i < d -> b < d -> get t [0; i; b] = delta i b.
Proof.
  cbn zeta. split; [apply (lt_ok_mk _ 1 [d] d); [apply wf_reshape; [apply wf_tab|cbn [shp eye tab]; rewrite !size_cons, size_nil; lia]|reflexivity]|].
  do 3 (split; [reflexivity|]). intros i b Hi Hb. rewrite (get_reshape' _ _ _ [i; b]); [apply get_eye; assumption|]. cbn [shp eye tab ravel]. rewrite !size_cons, size_nil. lia.
Qed.
Lemma last_site (v : nd K) d : shp v = [d] -> let t := reshape (ndiag v) [d; d; 1] in
  lt_ok t /\ ldim t = d /\ rdim t = 1 /\ pdims t = [d] /\ forall a i, a < d -> i < d -> get t [a; i; 0] = (delta a i * get v [a])%K.
Proof.
  intros Ev. cbn zeta. assert (En : shp (ndiag v) = [d; d]) by (unfold ndiag; rewrite Ev; reflexivity).
  split; [apply (lt_ok_mk _ d [d] 1); [apply wf_reshape; [apply wf_tab|rewrite En, !size_cons, size_nil; lia]|reflexivity]|].
  do 3 (split; [reflexivity|]). intros a i Ha Hi. rewrite (get_reshape' _ _ _ [a; i]).
  - unfold ndiag. rewrite Ev. cbn [hd]. rewrite get_tab by (apply inr2; assumption). reflexivity.
  - rewrite En. cbn [ravel]. rewrite !size_cons, size_nil. lia.
Qed.
Lemma diag_tail (v : nd K) d m : shp v = [d] -> 0 < d -> let us := repeat (delta3 d) m ++ [reshape (ndiag v) [d; d; 1]] in
  bonds us d 1 /\ map pdims us = repeat [d] (S m) /\
  forall is a, length is = S m -> inr is (repeat d (S m)) -> a < d -> amp us (singles is) a 0 = (kprod (map (delta a) is) * get v [a])%K.
Proof.
  intros Ev Hd us. destruct (last_site v d Ev) as (L1 & L2 & L3 & L4 & L5). destruct (delta3_bonds d) as (D1 & D2 & D3 & D4).
  unfold us; clear us. induction m as [|m [I1 [I2 I3]]].
  - cbn [repeat app]. split; [cbn [bonds]; auto|]. split; [cbn [map]; rewrite L4; reflexivity|].
    intros is a Hl Hi Ha. destruct is as [|i [|]]; try discriminate. inversion Hi; subst. cbn [singles map]. rewrite amp_one by (rewrite L3; lia). unfold ent. cbn [app].
    rewrite L5 by assumption. cbn [kprod fold_right]. ring.
  - cbn [repeat app]. split; [cbn [bonds]; rewrite D3; auto|]. split; [cbn [map]; rewrite D4, I2; reflexivity|].
    intros is a Hl Hi Ha. destruct is as [|i is]; [discriminate|]. cbn [repeat] in Hi. inversion Hi as [|? ? ? ? Hi1 Hi2]; subst. cbn [singles map]. rewrite amp_cons, D3.
    set (us := repeat (delta3 d) m ++ [reshape (ndiag v) [d; d; 1]]) in *.
    transitivity (bigsum d (fun c => delta i c * (delta a i * amp us (singles is) c O))%K).
    { apply bigsum_ext. intros c Hc. unfold ent. cbn [app]. rewrite get_delta3 by assumption. unfold singles. ring. }
    rewrite (bigsum_delta_l d i (fun c => (delta a i * amp _ _ c O)%K)) by exact Hi1. rewrite I3 by (auto; cbn in Hl; lia).
    cbn [kprod fold_right]. change (fold_right kmul k1) with (@kprod K). destruct (Nat.eq_dec a i) as [->|Hn]; [rewrite delta_eq; ring|rewrite (delta_neq a i) by exact Hn; ring].
Qed.
Lemma kprod_delta_same a is : (forall i, In i is -> i = a) -> kprod (map (delta (K:=K) a) is) = k1.
Proof. induction is as [|i is IH]; intros H; [reflexivity|]. cbn. change (fold_right kmul k1) with (@kprod K). rewrite IH by (intros; apply H; right; assumption). rewrite (H i) by (left; reflexivity). rewrite delta_eq. ring. Qed.
Lemma kprod_delta_diff a is i : In i is -> i <> a -> kprod (map (delta (K:=K) a) is) = k0.
Proof.
  induction is as [|j is IH]; intros Hin Hn; [destruct Hin|]. cbn. change (fold_right kmul k1) with (@kprod K). destruct Hin as [->|Hin].
  - rewrite delta_neq by congruence. ring.
  - rewrite (IH Hin Hn). ring.
Qed.

Theorem diagonal_many (qr : nd K -> res (nd K * nd K)) (v : nd K) n d : shp v = [d] -> 0 < d -> 2 <= n ->
  exists z, diagonal_mpa qr v n = Ok z /\ mpa_pos z /\ mshape z = repeat [d] n /\ ranks z = repeat d (n - 1) /\
    canonical_form z = (Z.of_nat n - 1, Z.of_nat n)%Z /\ canon_true z /\
    forall i is, i < d -> inr is (repeat d (n - 1)) -> entry z (singles (i :: is)) = (kprod (map (delta i) is) * get v [i])%K.
Proof.
  intros Ev Hd Hn. unfold diagonal_mpa. rewrite (proj2 (Nat.ltb_lt _ _)) by lia. cbn [passert]. unfold ndim. rewrite Ev. cbn [length Nat.eqb praise_unless hd].
  rewrite (proj2 (Nat.ltb_ge _ _) Hn). destruct n as [|[|m]]; try lia. replace (S (S m) - 2) with m by lia.
  destruct (first_site d) as (F1 & F2 & F3 & F4 & F5). destruct (diag_tail v d m Ev Hd) as (T1 & T2 & T3). destruct (last_site v d Ev) as (L1 & L2 & L3 & L4 & L5). destruct (delta3_bonds d) as (D1 & D2 & D3 & D4).
  set (ts := reshape (eye d) [1; d; d] :: repeat (delta3 d) m ++ [reshape (ndiag v) [d; d; 1]]).
  assert (Len : length ts = S (S m)) by (unfold ts; cbn [length]; rewrite app_length, repeat_length; cbn; lia).
  assert (HB : bonds ts 1 1) by (unfold ts; cbn [bonds]; rewrite F3; auto).
  rewrite (lt_init_ok ts 1 1); [|discriminate|exact HB|unfold cf_ok; rewrite Len; lia].
  eexists. split; [reflexivity|]. assert (Hok : mpa_ok (mkLt ts (Z.of_nat (S (S m)) - 1) (Z.of_nat (S (S m))))) by (split; [discriminate|exact HB]).
  split. { split; [exact Hok|]. cbn [lts]. unfold ts. constructor; [cbn [shp reshape]; rewrite !size_cons, size_nil; nia|]. apply Forall_app. split.
    - apply Forall_forall. intros t Ht. apply repeat_spec in Ht. subst. cbn [shp delta3 tab]. rewrite !size_cons, size_nil. nia.
    - constructor; [|constructor]. cbn [shp reshape]. rewrite !size_cons, size_nil. nia. }
  assert (Sh : mshape (mkLt ts (Z.of_nat (S (S m)) - 1) (Z.of_nat (S (S m)))) = repeat [d] (S (S m))) by (unfold mshape; cbn [lts]; unfold ts; cbn [map]; rewrite F4, T2; reflexivity).
  split; [exact Sh|].
  split. { unfold ranks. cbn [lts tl ts]. rewrite map_app, map_rep. cbn [map]. rewrite D2, L2. replace (S (S m) - 1) with (m + 1) by lia. rewrite repeat_app. reflexivity. }
  split; [reflexivity|]. split.
  { split; unfold llen; cbn [lcan rcan lts]; rewrite Len; intros k Hk Hk'; [|lia]. unfold ts. destruct k as [|k].
    - cbn [nth]. apply (left_iso_delta _ d 1); auto. intros a i b Ha Hi Hb. replace a with 0 by lia. cbn [Nat.eqb]. apply F5; assumption.
    - cbn [nth]. rewrite app_nth1 by (rewrite repeat_length; lia). rewrite (nth_indep _ dummy (delta3 d)) by (rewrite repeat_length; lia). rewrite nth_repeat. apply (left_iso_delta _ d d); auto.
      intros a i b Ha Hi Hb. rewrite get_delta3 by assumption. destruct (Nat.eqb_spec d 1) as [->|]; [|reflexivity]. replace a with 0 by lia. replace i with 0 by lia. rewrite delta_eq. ring. }
  intros i is Hi His. replace (S (S m) - 1) with (S m) in His by lia.
  assert (V : Forall2 inr (singles (i :: is)) (repeat [d] (S (S m)))).
  { replace (repeat [d] (S (S m))) with (singles (repeat d (S (S m)))) by (unfold singles; rewrite map_rep; reflexivity). apply singles_valid. constructor; assumption. }
  rewrite entry_amp by (auto; rewrite Sh; exact V). cbn [lts]. unfold ts. change (singles (i :: is)) with ([i] :: singles is). rewrite amp_cons, F3.
  set (us := repeat (delta3 d) m ++ [reshape (ndiag v) [d; d; 1]]) in *.
  transitivity (bigsum d (fun c => delta i c * amp us (singles is) c O)%K).
  { apply bigsum_ext. intros c Hc. unfold ent. cbn [app]. rewrite F5 by assumption. reflexivity. }
  rewrite (bigsum_delta_l d i (fun c => amp _ _ c 0)) by exact Hi. apply T3; auto. rewrite (inr_length _ _ His), repeat_length. reflexivity.
Qed.
End Gen.
