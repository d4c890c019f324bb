(** Proofs about povm/localpovm.py. *)
From Verif Require Export LocalPovm NdFacts PfShape.
Open Scope nat_scope.

Section LP.
Context {K : StarRing}.
Add Ring Kr : (k_ring K).

(** ** Sums over lists *)
Definition lsum (l : list K) : K := fold_right kadd k0 l.
Lemma lsum_cons x l : lsum (x :: l) = (x + lsum l)%K.
Proof. reflexivity. Qed.
Lemma lsum_nil : lsum [] = k0.
Proof. reflexivity. Qed.
Lemma lsum_app l m : lsum (l ++ m) = (lsum l + lsum m)%K.
Proof. induction l as [|x l IH]; cbn [app]; [unfold lsum at 2; cbn [fold_right]; ring|]. rewrite !lsum_cons, IH. ring. Qed.
Lemma lsum_concat ls : lsum (concat ls) = lsum (map lsum ls).
Proof. induction ls as [|l ls IH]; [reflexivity|]. cbn [concat map]. rewrite lsum_app, IH. reflexivity. Qed.
Lemma lsum_flat_map {A} (f : A -> list K) l : lsum (flat_map f l) = lsum (map (fun a => lsum (f a)) l).
Proof. induction l as [|a l IH]; [reflexivity|]. cbn [flat_map map]. rewrite lsum_app, IH. reflexivity. Qed.
Lemma lsum_scale c l : lsum (map (fun x => c * x)%K l) = (c * lsum l)%K.
Proof. induction l as [|x l IH]; cbn [map]; [unfold lsum; cbn [fold_right]; ring|]. rewrite !lsum_cons, IH. ring. Qed.
Lemma lsum_ext {A} (f g : A -> K) l : (forall a, In a l -> f a = g a) -> lsum (map f l) = lsum (map g l).
Proof. intros H. f_equal. apply map_ext_in. exact H. Qed.
Lemma lsum_seq a n f : lsum (map f (seq a n)) = bigsum n (fun i => f (a + i)).
Proof.
  revert a. induction n as [|n IH]; intros a; [reflexivity|]. cbn [seq map]. rewrite bigsum_shift, Nat.add_0_r. rewrite lsum_cons, IH.
  f_equal. apply bigsum_ext. intros i _. f_equal. lia.
Qed.
Lemma bigsum_list {A} (f : A -> K) l d : bigsum (length l) (fun k => f (nth k l d)) = lsum (map f l).
Proof.
  induction l as [|x l IH]; [reflexivity|]. cbn [length]. rewrite bigsum_shift. cbn [nth map]. rewrite lsum_cons, IH. reflexivity.
Qed.
Lemma fold_left_sum l (a : K) : fold_left kadd l a = (a + lsum l)%K.
Proof. revert a. induction l as [|x l IH]; intros a; cbn [fold_left]; [rewrite lsum_nil; ring|]. rewrite IH, lsum_cons. ring. Qed.

(** ** Arrays of matrices *)
Lemma nth_concat_eq {A} (l : list (list A)) p d k i : (forall x, In x l -> length x = p) -> k < length l -> i < p ->
  nth (k * p + i) (concat l) d = nth i (nth k l []) d.
Proof.
  revert k. induction l as [|x l IH]; intros k H Hk Hi; [cbn in Hk; lia|]. cbn [concat]. pose proof (H x (or_introl eq_refl)) as Hx. destruct k as [|k].
  - cbn [Nat.mul Nat.add nth]. apply app_nth1. lia.
  - cbn [nth]. rewrite app_nth2 by (cbn [Nat.mul]; lia). rewrite Hx. replace (S k * p + i - p) with (k * p + i) by (cbn [Nat.mul]; lia). apply IH; [intros; apply H; right; assumption|cbn in Hk; lia|exact Hi].
Qed.
Lemma concat_len {A} (l : list (list A)) p : (forall x, In x l -> length x = p) -> length (concat l) = length l * p.
Proof. induction l as [|x l IH]; intros H; [reflexivity|]. cbn [concat length Nat.mul]. rewrite app_length, IH, (H x) by (intros; (apply H; right; assumption) || left; reflexivity). reflexivity. Qed.
Lemma asarray_ok (l : list (nd K)) s : l <> [] -> Forall (fun a => ndwf a /\ shp a = s) l ->
  exists e, asarray l = Ok e /\ ndwf e /\ shp e = length l :: s /\ forall k idx, k < length l -> inr idx s -> get e (k :: idx) = get (nth k l (mkNd [] [])) idx.
Proof.
  intros Hne H. destruct l as [|a l]; [congruence|]. cbn [asarray]. rewrite Forall_forall in H.
  assert (E : forallb (fun b => list_eqb (shp b) (shp a)) (a :: l) = true).
  { apply forallb_forall. intros b Hb. destruct (H b Hb) as [_ ->]. destruct (H a (or_introl eq_refl)) as [_ ->]. apply list_eqb_refl. }
  rewrite E. cbn [praise_unless]. destruct (H a (or_introl eq_refl)) as [_ Sa]. rewrite Sa.
  assert (Hl : forall x, In x (map (@dat K) (a :: l)) -> length x = size s).
  { intros x Hx. apply in_map_iff in Hx. destruct Hx as (b & <- & Hb). destruct (H b Hb) as [W <-]. exact W. }
  eexists. split; [reflexivity|]. split; [|split; [reflexivity|]].
  - unfold ndwf. cbn [shp dat]. rewrite (concat_len _ _ Hl), map_length, size_cons. reflexivity.
  - intros k idx Hk Hi. unfold get at 1. cbn [shp dat ravel]. rewrite (nth_concat_eq _ (size s)); [|exact Hl|rewrite map_length; exact Hk|apply ravel_lt; exact Hi].
    change (@nil (car K)) with (dat (mkNd (K:=K) [] [])). rewrite map_nth. unfold get. cbn [dat]. destruct (H (nth k (a :: l) (mkNd [] []))) as [_ ->]; [apply nth_In; exact Hk|reflexivity].
Qed.

(** A POVM with matrices [fs] of dimension [d]. *)
Definition mats : Type := list (nat -> nat -> K).
Definition zmat : nat -> nat -> K := fun _ _ => k0.
Definition is_povm (p : povm K) (d : nat) (fs : mats) : Prop :=
  ndwf (elements p) /\ shp (elements p) = [length fs; d; d] /\
  forall k a b, k < length fs -> a < d -> b < d -> get (elements p) [k; a; b] = nth k fs zmat a b.
Lemma povm_new_ok l ic d fs : l <> [] -> Forall2 (fun a f => ndwf a /\ shp a = [d; d] /\ forall i j, i < d -> j < d -> get a [i; j] = f i j) l fs ->
  exists p, povm_new (K:=K) l ic = Ok p /\ info_complete p = ic /\ is_povm p d fs.
Proof.
  intros Hne H. assert (L : length l = length fs) by (clear Hne; induction H; cbn; congruence).
  destruct (asarray_ok l [d; d] Hne) as (e & E & We & Se & Ge).
  { clear - H. induction H as [|a f l fs (A & B & _) H IH]; constructor; auto. }
  unfold povm_new. rewrite E. cbn [bind]. eexists. split; [reflexivity|]. split; [reflexivity|]. split; [exact We|]. split; [cbn [elements]; rewrite Se, L; reflexivity|].
  cbn [elements]. intros k a b Hk Ha Hb. rewrite Ge by (try lia; repeat constructor; assumption).
  assert (Hk' : k < length l) by lia. clear - H Hk' Ha Hb. revert k Hk'. induction H as [|x f l fs (A & B & C) H IH]; intros [|k] Hk; cbn in *; try lia; [apply C; assumption|apply IH; lia].
Qed.
Lemma get_outer (v w : list K) a b : a < length v -> b < length w -> get (outer v w) [a; b] = (nth a v k0 * nth b w k0)%K.
Proof. intros Ha Hb. unfold outer. rewrite get_tab by (repeat constructor; assumption). reflexivity. Qed.
Definition proj_of (v : list K) : nat -> nat -> K := fun a b => (nth a v k0 * kconj (nth b v k0))%K.
Theorem from_vectors_ok vecs ic d : vecs <> [] -> Forall (fun v => length v = d) vecs ->
  exists p, from_vectors vecs ic = Ok p /\ info_complete p = ic /\ is_povm p d (map proj_of vecs).
Proof.
  intros Hne H. unfold from_vectors. apply povm_new_ok; [destruct vecs; [congruence|discriminate]|].
  clear Hne. induction H as [|v vecs Hv H IH]; [constructor|]. constructor; [|exact IH]. split; [apply wf_tab|]. split; [unfold outer; cbn; rewrite map_length, Hv; reflexivity|].
  intros i j Hi Hj. rewrite get_outer by (rewrite ?map_length; lia). unfold proj_of. f_equal. rewrite (nth_indep _ _ (kconj k0)) by (rewrite map_length; lia). apply map_nth.
Qed.
Lemma povm_list_ok p d fs : is_povm p d fs ->
  Forall2 (fun a f => ndwf a /\ shp a = [d; d] /\ forall i j, i < d -> j < d -> get a [i; j] = f i j) (povm_list p) fs.
Proof.
  intros (W & S & G). unfold povm_list, povm_len. rewrite S. cbn [hd].
  assert (A : forall k, k < length fs -> ndwf (povm_get p k) /\ shp (povm_get p k) = [d; d] /\ forall i j, i < d -> j < d -> get (povm_get p k) [i; j] = nth k fs zmat i j).
  { intros k Hk. unfold povm_get, take_axis. split; [apply wf_tab|]. rewrite S. cbn [remove_at]. split; [reflexivity|]. intros i j Hi Hj. rewrite get_tab by (repeat constructor; assumption). cbn [insert_at]. apply G; assumption. }
  clear W S G. revert A. generalize (povm_get p). intros h. revert h. induction fs as [|f fs IH]; intros h A; [constructor|]. cbn [length seq map]. constructor; [apply (A 0); cbn; lia|].
  rewrite <- seq_shift, map_map. apply IH. intros k Hk. apply (A (S k)). cbn. lia.
Qed.

(** ** probability_map *)
Theorem povm_pmap_ok p d fs : is_povm p d fs -> 0 < length fs ->
  exists m, povm_pmap p = Ok m /\ ndwf m /\ shp m = [length fs; d * d] /\
    forall k i j, k < length fs -> i < d -> j < d -> get m [k; i * d + j] = nth k fs zmat j i.
Proof.
  intros (W & S & G) Hn. unfold povm_pmap, povm_len, ndim. rewrite S. cbn [length Nat.eqb praise_unless hd].
  set (t := transpose (elements p) [0; 2; 1]). assert (St : shp t = [length fs; d; d]) by (unfold t; rewrite shp_transpose, S; reflexivity).
  assert (Ez : size [length fs; d * d] = size (shp t)) by (rewrite St, !size_cons, size_nil; lia).
  unfold reshape_py. rewrite <- Ez. rewrite (resolve_shape_spec [Z.of_nat (length fs); (-1)%Z] [length fs; d * d] (RT_one [length fs] (d * d) [] ltac:(rewrite size_cons, size_nil; lia) ltac:(rewrite size_nil; lia))).
  eexists. split; [reflexivity|]. split; [apply wf_reshape; [apply wf_transpose|exact Ez]|]. split; [reflexivity|].
  intros k i j Hk Hi Hj. rewrite (get_reshape' _ _ _ [k; i; j]) by (rewrite St; cbn [ravel]; rewrite !size_cons, size_nil; lia).
  unfold t. change [k; i; j] with (gather [0; 2; 1] [k; j; i]). rewrite get_transpose_gather; [apply G; assumption| | |].
  - repeat constructor; cbn; intuition lia.
  - unfold ndim. rewrite S. reflexivity.
  - rewrite S. repeat constructor; assumption.
Qed.

(** ** concat *)
Definition scaled (w : K) (f : nat -> nat -> K) : nat -> nat -> K := fun a b => (w * f a b)%K.
Definition mix (ws : list K) (fss : list mats) : mats := concat (map (fun q => map (scaled (snd q)) (fst q)) (combine fss ws)).
Definition total (fs : mats) (a b : nat) : K := lsum (map (fun f => f a b) fs).
Theorem povm_concat_ok close1 ps ws ic d fss : Forall2 (fun p fs => is_povm p d fs) ps fss -> length ws = length ps ->
  close1 (lsum ws) = true -> mix ws fss <> [] ->
  exists p, povm_concat close1 ps ws ic = Ok p /\ info_complete p = ic /\ is_povm p d (mix ws fss).
Proof.
  intros H L Hc Hne. unfold povm_concat. rewrite fold_left_sum. replace (k0 + lsum ws)%K with (lsum ws) by ring. rewrite Hc. cbn [passert].
  assert (F : Forall2 (fun a f => ndwf a /\ shp a = [d; d] /\ forall i j, i < d -> j < d -> get a [i; j] = f i j)
      (concat (map (fun q => map (nscale (snd q)) (povm_list (fst q))) (combine ps ws))) (mix ws fss)).
  { clear Hne Hc. unfold mix. revert ws L. induction H as [|p fs ps fss Hp H IH]; intros [|w ws] L; try discriminate; [constructor|].
    cbn [combine map concat fst snd]. apply Forall2_app; [|apply IH; cbn in L; lia].
    pose proof (povm_list_ok p d fs Hp) as Q. clear - Q. induction Q as [|a f l fs (A & B & C) Q IH]; [constructor|]. cbn [map]. constructor; [|exact IH].
    split; [apply wf_nscale; exact A|]. split; [exact B|]. intros i j Hi Hj. rewrite get_nscale by (rewrite B; repeat constructor; assumption). rewrite C by assumption. reflexivity. }
  apply povm_new_ok; [|exact F]. intros E. rewrite E in F. inversion F. congruence.
Qed.
Lemma povm_concat_weights close1 (ps : list (povm K)) ws ic : close1 (lsum ws) = false -> povm_concat close1 ps ws ic = Err AssertionError.
Proof. intros H. unfold povm_concat. rewrite fold_left_sum. replace (k0 + lsum ws)%K with (lsum ws) by ring. rewrite H. reflexivity. Qed.
Lemma total_mix ws fss a b t : length ws = length fss -> Forall (fun fs => total fs a b = t) fss -> total (mix ws fss) a b = (lsum ws * t)%K.
Proof.
  intros L H. revert ws L. induction H as [|fs fss Hf H IH]; intros [|w ws] L; try discriminate; unfold total, mix in *; cbn [combine map concat fst snd] in *; [rewrite !lsum_nil; ring|].
  rewrite map_app, lsum_app, map_map, IH by (cbn in L; lia). unfold scaled. rewrite lsum_cons, <- (map_map (fun f => f a b) (fun x => w * x)%K), lsum_scale, Hf. ring.
Qed.

(** ** The X, Y and Z POVMs *)
Variables (ki : K) (rsq frac : nat -> K) (close1 : K -> bool).
Definition kn (n : nat) : K := bigsum n (fun _ => k1).
Hypothesis ki_sq : (ki * ki)%K = (- k1)%K.
Hypothesis ki_conj : kconj ki = (- ki)%K.
Hypothesis rsq_sq : forall n, 0 < n -> (kn n * (rsq n * rsq n))%K = k1.
Hypothesis rsq_conj : forall n, kconj (rsq n) = rsq n.

Definition pv (i j : nat) (c : K) (a : nat) : K := if Nat.eqb a i then k1 else if Nat.eqb a j then c else k0.
Lemma nth_pair_row d i j c a : a < d -> nth a (pair_row d i j c) k0 = pv i j c a.
Proof. intros Ha. unfold pair_row. rewrite (nth_indep _ _ (pv i j c 0)) by (rewrite map_length, seq_length; exact Ha). rewrite (map_nth (pv i j c)), seq_nth by exact Ha. reflexivity. Qed.
Definition q2 (d : nat) : K := (rsq (2 * (d - 1)) * rsq (2 * (d - 1)))%K.
Lemma proj_pair d i j c a b : a < d -> b < d ->
  proj_of (map (fun x => x * rsq (2 * (d - 1))%nat)%K (pair_row d i j c)) a b = (q2 d * (pv i j c a * kconj (pv i j c b)))%K.
Proof.
  intros Ha Hb. unfold proj_of, q2. set (r := rsq (2 * (d - 1))).
  assert (N : forall l, l < d -> nth l (map (fun x => x * r)%K (pair_row d i j c)) k0 = (pv i j c l * r)%K).
  { intros l Hl. rewrite (nth_indep _ _ (k0 * r)%K) by (unfold pair_row; rewrite !map_length, seq_length; exact Hl). rewrite (map_nth (fun x => x * r)%K), nth_pair_row by exact Hl. reflexivity. }
  rewrite !N by assumption. rewrite kconj_mul. unfold r at 2. rewrite rsq_conj. fold r. ring.
Qed.
Lemma upairs_sum d (g : nat * nat -> K) : lsum (map g (upairs d)) = bigsum d (fun i => bigsum d (fun j => if Nat.ltb i j then g (i, j) else k0)).
Proof.
  unfold upairs. rewrite flat_map_concat_map, concat_map, map_map, lsum_concat, map_map. rewrite lsum_seq. destruct d as [|d]; [reflexivity|]. replace (S d - 1) with d by lia.
  cbn [bigsum]. rewrite (bigsum_zero d (fun j => if d <? j then _ else _)) by (intros j Hj; destruct (Nat.ltb_spec d j); [lia|reflexivity]). rewrite Nat.ltb_irrefl.
  transitivity (bigsum d (fun i => bigsum d (fun j => if i <? j then g (i, j) else k0) + (if i <? d then g (i, d) else k0)))%K; [|rewrite bigsum_add; cbn [bigsum]; rewrite <- bigsum_add; cbn; ring].
  apply bigsum_ext. intros i Hi. cbn [Nat.add]. rewrite map_map. rewrite lsum_seq.
  change (bigsum d (fun j => if i <? j then g (i, j) else k0) + (if i <? d then g (i, d) else k0))%K with (bigsum (S d) (fun j => if i <? j then g (i, j) else k0)).
  replace (S d) with (S i + (S d - S i)) at 2 by lia. rewrite bigsum_split. rewrite (bigsum_zero (S i)) by (intros j Hj; destruct (Nat.ltb_spec i j); [lia|reflexivity]).
  rewrite (bigsum_ext (S d - S i) (fun j => if i <? S i + j then _ else _) (fun j => g (i, S i + j))) by (intros j Hj; destruct (Nat.ltb_spec i (S i + j)); [reflexivity|lia]). ring.
Qed.
Lemma upairs_in d i j : i < j -> j < d -> In (i, j) (upairs d).
Proof. intros H1 H2. unfold upairs. apply in_flat_map. exists i. split; [apply in_seq; lia|]. apply in_map_iff. exists j. split; [reflexivity|apply in_seq; lia]. Qed.
Lemma upairs_out d i j : In (i, j) (upairs d) -> i < j /\ j < d.
Proof. unfold upairs. intros H. apply in_flat_map in H. destruct H as (i' & H1 & H2). apply in_seq in H1. apply in_map_iff in H2. destruct H2 as (j' & E & H2). apply in_seq in H2. injection E as -> ->. lia. Qed.

Lemma pair_two i j c a b : i <> j -> (c * kconj c)%K = k1 ->
  (pv i j c a * kconj (pv i j c b) + pv i j (- c)%K a * kconj (pv i j (- c)%K b) = (k1 + k1) * (delta a i * delta b i + delta a j * delta b j))%K.
Proof.
  intros Hij Hc. unfold pv, delta.
  destruct (Nat.eqb_spec a i), (Nat.eqb_spec b i), (Nat.eqb_spec a j), (Nat.eqb_spec b j); subst; try congruence;
    rewrite ?kconj_1, ?kconj_0, ?kconj_opp; try ring;
    (* both on j *) match goal with |- (?x + - ?y * - ?z = _)%K => transitivity ((k1 + k1) * (c * kconj c))%K; [ring|rewrite Hc; ring] end.
Qed.
Lemma pairs_count d (h : nat -> K) : 0 < d -> bigsum d (fun i => bigsum d (fun j => if Nat.ltb i j then (h i + h j)%K else k0)) = (kn (d - 1) * bigsum d h)%K.
Proof.
  intros Hd.
  transitivity (bigsum d (fun i => bigsum d (fun j => (if i <? j then h i else k0) + (if i <? j then h j else k0))))%K.
  { apply bigsum_ext. intros i _. apply bigsum_ext. intros j _. destruct (i <? j); [reflexivity|ring]. }
  transitivity (bigsum d (fun i => bigsum d (fun j => if i <? j then h i else k0)) + bigsum d (fun i => bigsum d (fun j => if i <? j then h j else k0)))%K.
  { rewrite <- bigsum_add. apply bigsum_ext. intros i _. apply bigsum_add. }
  rewrite (bigsum_swap d d (fun i j => if i <? j then h j else k0)). rewrite <- bigsum_add. rewrite <- bigsum_mul_l. apply bigsum_ext. intros i Hi. rewrite <- bigsum_add.
  rewrite (bigsum_ext d _ (fun j => h i * (k1 - delta i j))%K).
  2:{ intros j _. unfold delta. destruct (Nat.ltb_spec i j), (Nat.ltb_spec j i), (Nat.eqb_spec i j); try lia; ring. }
  rewrite bigsum_mul_l, bigsum_sub. replace (bigsum d (delta (K:=K) i)) with (k1 (s:=K)).
  2:{ rewrite (bigsum_ext d _ (fun j => delta i j * k1)%K) by (intros; ring). rewrite bigsum_delta_l by exact Hi. reflexivity. }
  unfold kn. destruct d as [|d]; [lia|]. replace (S d - 1) with d by lia. cbn [bigsum]. ring.
Qed.
Lemma kn_double n : kn (2 * n) = ((k1 + k1) * kn n)%K.
Proof. unfold kn. induction n as [|n IH]; [cbn; ring|]. replace (2 * S n) with (S (S (2 * n))) by lia. cbn [bigsum]. cbn [bigsum] in IH. rewrite IH. ring. Qed.

Definition pair_mats (d : nat) (c : K) : mats := map proj_of (pair_vectors rsq d c (- c)%K).
Lemma pair_mats_eq d c : pair_mats d c = flat_map (fun p => [proj_of (map (fun x => x * rsq (2 * (d - 1))%nat)%K (pair_row d (fst p) (snd p) c)); proj_of (map (fun x => x * rsq (2 * (d - 1))%nat)%K (pair_row d (fst p) (snd p) (- c)%K))]) (upairs d).
Proof. unfold pair_mats, pair_vectors. induction (upairs d) as [|p l IH]; [reflexivity|]. cbn [flat_map map app]. do 2 f_equal. exact IH. Qed.
Lemma pair_total d c a b : 2 <= d -> (c * kconj c)%K = k1 -> a < d -> b < d -> total (pair_mats d c) a b = delta a b.
Proof.
  intros Hd Hc Ha Hb. unfold total. rewrite pair_mats_eq. rewrite flat_map_concat_map, concat_map, lsum_concat, !map_map.
  rewrite (lsum_ext _ (fun p => if Nat.eqb (fst p) (snd p) then k0 else (q2 d * (k1 + k1)) * (delta a (fst p) * delta b (fst p) + delta a (snd p) * delta b (snd p)))%K).
  2:{ intros [i j] Hp. apply upairs_out in Hp. cbn [fst snd map]. rewrite !lsum_cons, lsum_nil, !proj_pair by assumption. destruct (Nat.eqb_spec i j); [lia|].
      transitivity (q2 d * (pv i j c a * kconj (pv i j c b) + pv i j (- c)%K a * kconj (pv i j (- c)%K b)))%K; [ring|]. rewrite pair_two by (assumption || lia). ring. }
  rewrite upairs_sum. cbn [fst snd].
  transitivity (bigsum d (fun i => bigsum d (fun j => if i <? j then ((q2 d * (k1 + k1)) * (delta a i * delta b i) + (q2 d * (k1 + k1)) * (delta a j * delta b j))%K else k0))).
  { apply bigsum_ext. intros i _. apply bigsum_ext. intros j _. destruct (Nat.ltb_spec i j); [|reflexivity]. destruct (Nat.eqb_spec i j); [lia|ring]. }
  rewrite (pairs_count d (fun i => (q2 d * (k1 + k1)) * (delta a i * delta b i))%K) by lia. rewrite bigsum_mul_l, bigsum_delta_l by exact Ha.
  pose proof (rsq_sq (2 * (d - 1)) ltac:(lia)) as Hq. fold (q2 d) in Hq. rewrite kn_double in Hq. rewrite (delta_sym b a).
  transitivity (((k1 + k1) * kn (d - 1) * q2 d) * delta a b)%K; [ring|]. rewrite Hq. ring.
Qed.
Lemma upairs_len d : length (flat_map (fun p : nat * nat => [p; p]) (upairs d)) = d * (d - 1).
Proof.
  assert (A : forall l : list (nat * nat), length (flat_map (fun p : nat * nat => [p; p]) l) = 2 * length l) by (induction l as [|p l IH]; [reflexivity|]; cbn [flat_map app length]; rewrite IH; lia).
  rewrite A. unfold upairs. 
  assert (B : forall m a, a + m <= d -> 2 * length (flat_map (fun i => map (fun j => (i, j)) (seq (S i) (d - S i))) (seq a m)) + m * (2 * a + m + 1) = 2 * m * d).
  { induction m as [|m IH]; intros a Ha; [reflexivity|]. cbn [seq flat_map]. rewrite app_length, map_length, seq_length. specialize (IH (S a) ltac:(lia)). nia. }
  specialize (B (d - 1) 0 ltac:(lia)). destruct d as [|d]; [reflexivity|]. replace (S d - 1) with d in * by lia. nia.
Qed.
Lemma pair_mats_len d c : length (pair_mats d c) = d * (d - 1).
Proof. rewrite <- upairs_len, pair_mats_eq. induction (upairs d) as [|p l IH]; [reflexivity|]. cbn [flat_map app length]. rewrite IH. reflexivity. Qed.
Lemma pair_vectors_ok d c : Forall (fun v => length v = d) (pair_vectors rsq d c (- c)%K).
Proof. unfold pair_vectors. induction (upairs d) as [|p l IH]; [constructor|]. cbn [flat_map app map]. constructor; [unfold pair_row; rewrite !map_length, seq_length; reflexivity|]. constructor; [unfold pair_row; rewrite !map_length, seq_length; reflexivity|exact IH]. Qed.
Theorem x_povm_ok d : 2 <= d -> exists p, x_povm rsq d = Ok p /\ info_complete p = false /\ is_povm p d (pair_mats d k1).
Proof.
  intros Hd. apply from_vectors_ok; [|apply pair_vectors_ok]. intros E. pose proof (pair_mats_len d k1) as L. unfold pair_mats in L. rewrite E in L. cbn in L. destruct d as [|[|d]]; [lia|lia|cbn in L; lia].
Qed.
Theorem y_povm_ok d : 2 <= d -> exists p, y_povm ki rsq d = Ok p /\ info_complete p = false /\ is_povm p d (pair_mats d ki).
Proof.
  intros Hd. apply from_vectors_ok; [|apply pair_vectors_ok]. intros E. pose proof (pair_mats_len d ki) as L. unfold pair_mats in L. rewrite E in L. cbn in L. destruct d as [|[|d]]; [lia|lia|cbn in L; lia].
Qed.
Definition z_mats (d : nat) : mats := map (fun i => proj_of (map (fun j => delta i j) (seq 0 d))) (seq 0 d).
Theorem z_povm_ok d : 0 < d -> exists p, z_povm (K:=K) d = Ok p /\ info_complete p = false /\ is_povm p d (z_mats d).
Proof.
  intros Hd. unfold z_povm, z_mats. rewrite <- map_map with (g := proj_of). apply from_vectors_ok; [destruct d; [lia|discriminate]|].
  apply Forall_forall. intros v Hv. apply in_map_iff in Hv. destruct Hv as (i & <- & _). rewrite map_length, seq_length. reflexivity.
Qed.
Lemma z_proj d i a b : a < d -> b < d -> proj_of (map (fun j => delta i j) (seq 0 d)) a b = (delta i a * delta i b)%K.
Proof.
  intros Ha Hb. unfold proj_of. assert (N : forall l, l < d -> nth l (map (fun j => delta i j) (seq 0 d)) k0 = delta (K:=K) i l).
  { intros l Hl. rewrite (nth_indep _ _ (delta i 0)) by (rewrite map_length, seq_length; exact Hl). rewrite (map_nth (fun j => delta i j)), seq_nth by exact Hl. reflexivity. }
  rewrite !N by assumption. rewrite delta_conj. reflexivity.
Qed.
Lemma z_total d a b : a < d -> b < d -> total (z_mats d) a b = delta a b.
Proof.
  intros Ha Hb. unfold total, z_mats. rewrite map_map. rewrite lsum_seq. cbn [Nat.add].
  rewrite (bigsum_ext d _ (fun i => delta a i * delta i b)%K) by (intros i _; rewrite z_proj, (delta_sym a i) by assumption; reflexivity).
  rewrite bigsum_delta_l by exact Ha. reflexivity.
Qed.

(** ** pauli_povm *)
Hypothesis frac_1 : forall n, 0 < n -> (kn n * frac n)%K = k1.
Hypothesis close1_1 : close1 k1 = true.
Definition pauli_fss (d : nat) : list mats := if Nat.eqb d 2 then [pair_mats d k1; pair_mats d ki; z_mats d] else [pair_mats d k1; pair_mats d ki].
Definition pauli_ws (d : nat) : list K := repeat (frac (length (pauli_fss d))) (length (pauli_fss d)).
Definition pauli_mats (d : nat) : mats := mix (pauli_ws d) (pauli_fss d).
Lemma pauli_ws_sum d : lsum (pauli_ws d) = k1.
Proof.
  unfold pauli_ws. assert (E : forall n (w : K), lsum (repeat w n) = (kn n * w)%K).
  { intros n w. induction n as [|n IH]; [unfold kn; cbn; ring|]. cbn [repeat]. rewrite lsum_cons, IH. unfold kn. cbn [bigsum]. ring. }
  rewrite E. apply frac_1. unfold pauli_fss. destruct (Nat.eqb d 2); cbn; lia.
Qed.
Lemma pauli_parts_ok d : 2 <= d -> exists ps, pauli_parts ki rsq d = Ok ps /\ Forall2 (fun p fs => is_povm p d fs) ps (pauli_fss d).
Proof.
  intros Hd. unfold pauli_parts, pauli_fss. destruct (Nat.ltb_spec 1 d); [|lia]. cbn [passert].
  destruct (x_povm_ok d Hd) as (x & Ex & _ & Hx). destruct (y_povm_ok d Hd) as (y & Ey & _ & Hy). rewrite Ex. cbn [bind]. rewrite Ey. cbn [bind].
  destruct (Nat.eqb_spec d 2) as [->|N].
  - destruct (z_povm_ok 2 ltac:(lia)) as (z & Ez & _ & Hz). rewrite Ez. cbn [bind]. eexists. split; [reflexivity|]. apply Forall2_cons; [exact Hx|]. apply Forall2_cons; [exact Hy|]. apply Forall2_cons; [exact Hz|]. apply Forall2_nil.
  - eexists. split; [reflexivity|]. apply Forall2_cons; [exact Hx|]. apply Forall2_cons; [exact Hy|]. apply Forall2_nil.
Qed.
Lemma mix_in w fs ws fss f : In (w, fs) (combine ws fss) -> In f fs -> In (scaled w f) (mix ws fss).
Proof.
  intros H1 H2. unfold mix. apply in_concat. exists (map (scaled w) fs). split; [|apply in_map; exact H2].
  apply in_map_iff. exists (fs, w). split; [reflexivity|]. revert ws H1. induction fss as [|g fss IH]; intros [|v ws] H1; cbn in *; try tauto. destruct H1 as [H1|H1]; [injection H1 as -> ->; left; reflexivity|right; apply IH; exact H1].
Qed.
Theorem pauli_povm_ok d : 2 <= d -> exists p, pauli_povm ki rsq frac close1 d = Ok p /\ info_complete p = true /\ is_povm p d (pauli_mats d).
Proof.
  intros Hd. unfold pauli_povm. destruct (pauli_parts_ok d Hd) as (ps & E & H). rewrite E. cbn [bind].
  assert (L : length ps = length (pauli_fss d)) by (clear - H; induction H; cbn; congruence). rewrite L.
  fold (pauli_ws d).
  apply povm_concat_ok; [exact H|unfold pauli_ws; rewrite repeat_length; congruence|rewrite pauli_ws_sum; exact close1_1|].
  intros C. pose proof (pair_mats_len d k1) as Lp. destruct (pair_mats d k1) as [|f fs] eqn:Ef; [destruct d as [|[|d]]; cbn in Lp; lia|].
  assert (I : In (scaled (frac (length (pauli_fss d))) f) (mix (pauli_ws d) (pauli_fss d))).
  { apply mix_in with (fs := pair_mats d k1); [|rewrite Ef; left; reflexivity]. unfold pauli_ws, pauli_fss. destruct (Nat.eqb d 2); cbn; left; reflexivity. }
  rewrite C in I. exact I.
Qed.
Lemma pauli_total d a b : 2 <= d -> a < d -> b < d -> total (pauli_mats d) a b = delta a b.
Proof.
  intros Hd Ha Hb. unfold pauli_mats. rewrite (total_mix _ _ a b (delta a b)); [rewrite pauli_ws_sum; ring|unfold pauli_ws; apply repeat_length|].
  assert (Hk : (ki * kconj ki)%K = k1) by (rewrite ki_conj; transitivity (- (ki * ki))%K; [ring|rewrite ki_sq; ring]).
  assert (H1 : (k1 * kconj k1)%K = k1 (s:=K)) by (rewrite kconj_1; ring).
  unfold pauli_fss. destruct (Nat.eqb d 2); repeat constructor; try (apply pair_total; assumption). apply z_total; assumption.
Qed.

(** ** Quadratic forms *)
Definition quad (d : nat) (f : nat -> nat -> K) (v : nat -> K) : K := bigsum d (fun a => bigsum d (fun b => kconj (v a) * f a b * v b))%K.
Lemma quad_proj d vec v : quad d (proj_of vec) v = (let z := bigsum d (fun a => kconj (v a) * nth a vec k0) in z * kconj z)%K.
Proof.
  cbn zeta. unfold quad, proj_of. rewrite bigsum_conj. rewrite bigsum_mul. apply bigsum_ext. intros a _. apply bigsum_ext. intros b _. rewrite kconj_mul, kconj_invol. ring.
Qed.
Lemma quad_scaled d w f v : quad d (scaled w f) v = (w * quad d f v)%K.
Proof. unfold quad, scaled. rewrite <- bigsum_mul_l. apply bigsum_ext. intros a _. rewrite <- bigsum_mul_l. apply bigsum_ext. intros b _. ring. Qed.
(** Every element of the three POVMs is a projector on a vector. *)
Lemma pair_proj_form d c f : In f (pair_mats d c) -> exists vec, f = proj_of vec.
Proof. unfold pair_mats. intros H. apply in_map_iff in H. destruct H as (v & <- & _). eauto. Qed.
Lemma z_proj_form d f : In f (z_mats d) -> exists vec, f = proj_of vec.
Proof. unfold z_mats. intros H. apply in_map_iff in H. destruct H as (v & <- & _). eauto. Qed.
Lemma pauli_form d f : In f (pauli_mats d) -> exists vec, f = scaled (frac (length (pauli_fss d))) (proj_of vec).
Proof.
  unfold pauli_mats, mix. intros H. apply in_concat in H. destruct H as (l & H1 & H2). apply in_map_iff in H1. destruct H1 as ((fs & w) & <- & H1). cbn [fst snd] in H2.
  pose proof (in_combine_l _ _ _ _ H1) as Hf. pose proof (in_combine_r _ _ _ _ H1) as Hw. unfold pauli_ws in Hw. apply repeat_spec in Hw. subst w. apply in_map_iff in H2. destruct H2 as (g & <- & Hg).
  assert (P : exists vec, g = proj_of vec); [|destruct P as (vec & ->); eauto].
  unfold pauli_fss in Hf. destruct (Nat.eqb d 2); cbn in Hf.
  - destruct Hf as [<-|[<-|[<-|[]]]]; eauto using pair_proj_form, z_proj_form.
  - destruct Hf as [<-|[<-|[]]]; eauto using pair_proj_form.
Qed.

(** ** Informational completeness *)
Hypothesis no2 : forall x : K, (x + x)%K = k0 -> x = k0.
Definition trdot (d : nat) (f g : nat -> nat -> K) : K := bigsum d (fun a => bigsum d (fun b => f a b * g b a))%K.
Lemma pv_sum d i j c (F : nat -> K) : i < j -> j < d -> bigsum d (fun a => pv i j c a * F a)%K = (F i + c * F j)%K.
Proof.
  intros H1 H2. rewrite (bigsum_ext d _ (fun a => delta i a * F a + delta j a * (c * F a))%K).
  - rewrite bigsum_add, (bigsum_delta_l d i F), (bigsum_delta_l d j (fun a => c * F a)%K) by lia. reflexivity.
  - intros a _. unfold pv, delta. destruct (Nat.eqb_spec a i), (Nat.eqb_spec i a), (Nat.eqb_spec a j), (Nat.eqb_spec j a); subst; try congruence; try lia; ring.
Qed.
Lemma trdot_pair d i j c X : i < j -> j < d ->
  trdot d (proj_of (map (fun x => x * rsq (2 * (d - 1))%nat)%K (pair_row d i j c))) X = (q2 d * (X i i + c * kconj c * X j j + kconj c * X j i + c * X i j))%K.
Proof.
  intros H1 H2. unfold trdot.
  rewrite (bigsum_ext d _ (fun a => pv i j c a * (q2 d * (X i a + kconj c * X j a)))%K).
  - rewrite pv_sum by assumption. ring.
  - intros a Ha. rewrite (bigsum_ext d _ (fun b => pv i j (kconj c) b * (pv i j c a * q2 d * X b a))%K); [rewrite pv_sum by assumption; ring|].
    intros b Hb. rewrite proj_pair by assumption. assert (E : kconj (pv i j c b) = pv i j (kconj c) b) by (unfold pv; destruct (b =? i), (b =? j); rewrite ?kconj_1, ?kconj_0; reflexivity). rewrite E. ring.
Qed.
Lemma trdot_scaled d w f X : trdot d (scaled w f) X = (w * trdot d f X)%K.
Proof. unfold trdot, scaled. rewrite <- bigsum_mul_l. apply bigsum_ext. intros a _. rewrite <- bigsum_mul_l. apply bigsum_ext. intros b _. ring. Qed.
Lemma unit_cancel (u v x : K) : (u * v)%K = k1 -> (v * x)%K = k0 -> x = k0.
Proof. intros H E. transitivity (u * v * x)%K; [rewrite H; ring|]. transitivity (u * (v * x))%K; [ring|rewrite E; ring]. Qed.
Theorem pauli_ic d X : 2 <= d -> (forall f, In f (pauli_mats d) -> trdot d f X = k0) -> forall a b, a < d -> b < d -> X a b = k0.
Proof.
  intros Hd H. set (n := length (pauli_fss d)). assert (Hn : 0 < n) by (unfold n, pauli_fss; destruct (Nat.eqb d 2); cbn; lia).
  assert (P : forall c, c = k1 \/ c = ki -> forall i j, i < j -> j < d -> forall s, s = c \/ s = (- c)%K -> (X i i + s * kconj s * X j j + kconj s * X j i + s * X i j)%K = k0).
  { intros c Hc i j Hij Hj s Hs. apply (unit_cancel (kn (2 * (d - 1))) (q2 d)); [apply rsq_sq; lia|]. apply (unit_cancel (kn n) (frac n)); [apply frac_1; exact Hn|].
    rewrite <- (trdot_pair d i j s X Hij Hj), <- trdot_scaled. apply H. apply mix_in with (fs := pair_mats d c).
    - unfold pauli_ws. fold n. unfold n, pauli_fss. destruct (Nat.eqb d 2); destruct Hc as [-> | ->]; cbn; auto.
    - rewrite pair_mats_eq. apply in_flat_map. exists (i, j). split; [apply upairs_in; assumption|]. cbn [fst snd]. destruct Hs as [-> | ->]; [left; reflexivity|right; left; reflexivity]. }
  assert (Hk : (ki * kconj ki)%K = k1) by (rewrite ki_conj; transitivity (- (ki * ki))%K; [ring|rewrite ki_sq; ring]).
  assert (Q : forall i j, i < j -> j < d -> (X i i + X j j)%K = k0 /\ X i j = k0 /\ X j i = k0).
  { intros i j Hij Hj.
    pose proof (P k1 (or_introl eq_refl) i j Hij Hj k1 (or_introl eq_refl)) as E1. pose proof (P k1 (or_introl eq_refl) i j Hij Hj (- k1)%K (or_intror eq_refl)) as E2.
    pose proof (P ki (or_intror eq_refl) i j Hij Hj ki (or_introl eq_refl)) as E3. pose proof (P ki (or_intror eq_refl) i j Hij Hj (- ki)%K (or_intror eq_refl)) as E4.
    rewrite ?kconj_1 in E1. rewrite ?kconj_opp, ?kconj_1 in E2. rewrite Hk, ki_conj in E3. clear E4.
    assert (D : (X i i + X j j)%K = k0).
    { apply no2. transitivity ((X i i + k1 * k1 * X j j + k1 * X j i + k1 * X i j) + (X i i + - k1 * - k1 * X j j + - k1 * X j i + - k1 * X i j))%K; [ring|]. rewrite E1, E2. ring. }
    assert (S1 : (X i j + X j i)%K = k0).
    { transitivity ((X i i + k1 * k1 * X j j + k1 * X j i + k1 * X i j) - (X i i + X j j))%K; [ring|]. rewrite E1, D. ring. }
    assert (S2 : (X i j - X j i)%K = k0).
    { transitivity (- (ki * ki) * (X i j - X j i))%K; [rewrite ki_sq; ring|].
      transitivity (- ki * ((X i i + k1 * X j j + - ki * X j i + ki * X i j) - (X i i + X j j)))%K; [ring|]. rewrite E3, D. ring. }
    split; [exact D|]. split; apply no2.
    - transitivity ((X i j + X j i) + (X i j - X j i))%K; [ring|]. rewrite S1, S2. ring.
    - transitivity ((X i j + X j i) - (X i j - X j i))%K; [ring|]. rewrite S1, S2. ring. }
  assert (DG : forall i, i < d -> X i i = k0).
  { destruct (Nat.eqb_spec d 2) as [E|N].
    - intros i Hi. assert (Z : trdot d (scaled (frac n) (proj_of (map (fun j => delta i j) (seq 0 d)))) X = k0).
      { apply H. apply mix_in with (fs := z_mats d); [unfold pauli_ws, n, pauli_fss; rewrite E; cbn; auto|]. unfold z_mats. apply in_map_iff. exists i. split; [reflexivity|apply in_seq; lia]. }
      rewrite trdot_scaled in Z. apply (unit_cancel (kn n) (frac n)) in Z; [|apply frac_1; exact Hn]. rewrite <- Z. unfold trdot.
      rewrite (bigsum_ext d _ (fun a => delta i a * X i a)%K); [rewrite bigsum_delta_l by exact Hi; reflexivity|].
      intros a Ha. rewrite (bigsum_ext d _ (fun b => delta i b * (delta i a * X b a))%K) by (intros b Hb; rewrite z_proj by assumption; ring). rewrite bigsum_delta_l by exact Hi. reflexivity.
    - (* three different diagonal entries *)
      assert (T : forall i j k, i < d -> j < d -> k < d -> i <> j -> i <> k -> j <> k -> X i i = k0).
      { assert (S : forall i j, i < d -> j < d -> i <> j -> (X i i + X j j)%K = k0).
        { intros i j Hi Hj Hne. destruct (Nat.lt_ge_cases i j) as [L|L]; [apply (Q i j L Hj)|]. destruct (Q j i ltac:(lia) Hi) as [E _]. rewrite <- E. ring. }
        intros i j k Hi Hj Hk' N1 N2 N3. apply no2. transitivity ((X i i + X j j) + (X i i + X k k) - (X j j + X k k))%K; [ring|]. rewrite !S by assumption. ring. }
      intros i Hi. destruct i as [|[|i]]; [apply (T 0 1 2); lia|apply (T 1 0 2); lia|apply (T (S (S i)) 0 1); lia]. }
  intros a b Ha Hb. destruct (Nat.lt_trichotomy a b) as [L|[->|L]]; [apply (Q a b L Hb)|apply DG; exact Hb|apply (Q b a L Ha)].
Qed.
End LP.
