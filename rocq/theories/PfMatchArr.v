(** The arrays computed by [match_elems]: outcomes that are summed, inner products and norms. *)
From Verif Require Export PfVar4 PfPhysics PfContract PfHS.
Open Scope nat_scope.

(** ** Tables: matrices flattened row by row *)
Definition table {A : Type} (n m : nat) (f : nat -> nat -> A) : list A := flat_map (fun i => map (f i) (seq 0 m)) (seq 0 n).
Lemma table_S {A : Type} n m (f : nat -> nat -> A) : table (S n) m f = map (f 0) (seq 0 m) ++ table n m (fun i => f (S i)).
Proof. unfold table. cbn [seq flat_map]. f_equal. rewrite <- seq_shift. rewrite !flat_map_concat_map, map_map. reflexivity. Qed.
Lemma table_length {A : Type} n m : forall f : nat -> nat -> A, length (table n m f) = n * m.
Proof. induction n as [|n IH]; intros f; [reflexivity|]. rewrite table_S, app_length, map_length, seq_length, IH. reflexivity. Qed.
Lemma table_nth {A : Type} n m (d : A) : forall f i j, i < n -> j < m -> nth (i * m + j) (table n m f) d = f i j.
Proof.
  induction n as [|n IH]; intros f i j Hi Hj; [lia|]. rewrite table_S. destruct i as [|i].
  - rewrite app_nth1 by (rewrite map_length, seq_length; lia). cbn [Nat.mul Nat.add]. rewrite (nth_indep _ d (f 0 0)) by (rewrite map_length, seq_length; lia). rewrite map_nth, seq_nth by lia. reflexivity.
  - rewrite app_nth2 by (rewrite map_length, seq_length; nia). rewrite map_length, seq_length. replace (S i * m + j - m) with (i * m + j) by nia. apply (IH (fun i => f (S i))); lia.
Qed.
Lemma table_map {A B : Type} (g : A -> B) n m : forall f, map g (table n m f) = table n m (fun i j => g (f i j)).
Proof. induction n as [|n IH]; intros f; [reflexivity|]. rewrite !table_S, map_app, map_map, IH. reflexivity. Qed.
Lemma combine_map2 {A B C : Type} (f : A -> B) (g : A -> C) l : combine (map f l) (map g l) = map (fun a => (f a, g a)) l.
Proof. induction l as [|a l IH]; [reflexivity|]. cbn. f_equal. exact IH. Qed.
Lemma combine_app {A B : Type} (a : list A) : forall (b : list B) a' b', length a = length b -> combine (a ++ a') (b ++ b') = combine a b ++ combine a' b'.
Proof. induction a as [|x a IH]; intros [|y b] a' b' L; try discriminate; [reflexivity|]. cbn. f_equal. apply IH. auto. Qed.
Lemma table_combine {A B : Type} n m : forall (f : nat -> nat -> A) (g : nat -> nat -> B), combine (table n m f) (table n m g) = table n m (fun i j => (f i j, g i j)).
Proof. induction n as [|n IH]; intros f g; [reflexivity|]. rewrite !table_S, combine_app by (rewrite !map_length; reflexivity). rewrite IH, combine_map2. reflexivity. Qed.
Lemma outer_table (F : Rdefinitions.R -> Rdefinitions.R -> Rdefinitions.R) n m (a b : nat -> Rdefinitions.R) : outer F (map a (seq 0 n)) (map b (seq 0 m)) = table n m (fun i j => F (a i) (b j)).
Proof. unfold outer, table. rewrite !flat_map_concat_map, map_map. f_equal. apply map_ext. intros i. rewrite map_map. reflexivity. Qed.
Lemma table_ext {A : Type} n m : forall f g : nat -> nat -> A, (forall i j, i < n -> j < m -> f i j = g i j) -> table n m f = table n m g.
Proof.
  intros f g H. unfold table. rewrite !flat_map_concat_map. f_equal. apply map_ext_in. intros i Hi. apply in_seq in Hi. apply map_ext_in. intros j Hj. apply in_seq in Hj. apply H; lia.
Qed.
Lemma table_In {A : Type} n m (f : nat -> nat -> A) x : In x (table n m f) <-> exists i j, i < n /\ j < m /\ x = f i j.
Proof.
  unfold table. rewrite in_flat_map. split.
  - intros (i & Hi & H). apply in_seq in Hi. apply in_map_iff in H. destruct H as (j & <- & Hj). apply in_seq in Hj. exists i, j. repeat split; lia.
  - intros (i & j & Hi & Hj & ->). exists i. split; [apply in_seq; lia|]. apply in_map_iff. exists j. split; [reflexivity|apply in_seq; lia].
Qed.
(** A list that has the entries of a table is the table. *)
Lemma table_eq {A : Type} n m (d : A) l f : length l = n * m -> (forall i j, i < n -> j < m -> nth (i * m + j) l d = f i j) -> l = table n m f.
Proof.
  intros L H. apply (nth_ext l (table n m f) d d); [rewrite table_length; exact L|]. intros k Hk. rewrite L in Hk.
  assert (m <> 0) by (destruct m; lia). rewrite (Nat.div_mod k m) by assumption. rewrite (Nat.mul_comm m). assert (k / m < n) by (apply Nat.div_lt_upper_bound; lia). assert (k mod m < m) by (apply Nat.mod_upper_bound; assumption).
  rewrite H, table_nth by assumption. reflexivity.
Qed.

(** ** Sites with one outcome *)
Lemma size_bigd ds : Forall (fun d => 0 < d) ds -> size (bigd ds) = size ds.
Proof.
  induction 1 as [|d ds Hd H IH]; [reflexivity|]. unfold bigd. cbn [filter]. fold (bigd ds). destruct (Nat.ltb_spec 1 d); rewrite !size_cons, ?IH; [reflexivity|]. assert (d = 1) by lia. subst. lia.
Qed.
Lemma ravel_bigi ds : forall is, Forall (fun d => 0 < d) ds -> inr is ds -> ravel (bigd ds) (bigi ds is) = ravel ds is.
Proof.
  induction ds as [|d ds IH]; intros is P Hi; [inversion Hi; reflexivity|]. apply inr_cons_inv in Hi. destruct Hi as (i & is' & -> & Hi & His). apply Forall_cons_iff in P. destruct P as [Pd P].
  unfold bigd, bigi. cbn [combine filter fst map]. fold (bigd ds). destruct (Nat.ltb_spec 1 d) as [H|H]; cbn [map snd]; fold (bigi ds is'); cbn [ravel]; rewrite IH by assumption.
  - rewrite size_bigd by assumption. reflexivity.
  - assert (i = 0) by lia. subst. reflexivity.
Qed.

(** The elements of a POVM as matrices *)
Definition elem_of {K : StarRing} (x : ltens K) (ks : list nat) : mat K := fun is js => entry x (triples ks is js).
(** Outcomes of the second POVM are summed at the sites where the first has one outcome. *)
Definition merge_dims (ns os : list nat) : list nat := zip2 (fun n o => if Nat.ltb 1 n then o else 1) ns os.
Fixpoint summed {K : StarRing} (ns os ks : list nat) (f : list nat -> K) : K :=
  match ns, os, ks with
  | n :: ns', o :: os', k :: ks' =>
      if Nat.ltb 1 n then summed ns' os' ks' (fun l => f (k :: l))
      else bigsum o (fun j => summed ns' os' ks' (fun l => f (j :: l)))
  | _, _, _ => f []
  end.

Section Gen.
Context {K : StarRing}.
Add Ring Kr : (k_ring K).
Lemma summed_ext ns : forall os ks (f g : list nat -> K), length os = length ns -> inr ks (merge_dims ns os) -> (forall l, inr l os -> f l = g l) -> summed ns os ks f = summed ns os ks g.
Proof.
  induction ns as [|n ns IH]; intros [|o os] ks f g L Hk H; try discriminate.
  - cbn. apply H. constructor.
  - change (merge_dims (n :: ns) (o :: os)) with ((if 1 <? n then o else 1) :: merge_dims ns os) in Hk. apply inr_cons_inv in Hk. destruct Hk as (k & ks' & -> & Hk & Hks). cbn [summed]. destruct (1 <? n).
    + apply IH; auto. intros l Hl. apply H. apply inr_cons; assumption.
    + apply bigsum_ext. intros j Hj. apply IH; auto. intros l Hl. apply H. apply inr_cons; assumption.
Qed.
Lemma summed_mul_l ns : forall os ks c (f : list nat -> K), summed ns os ks (fun l => c * f l)%K = (c * summed ns os ks f)%K.
Proof.
  induction ns as [|n ns IH]; intros [|o os] [|k ks] c f; cbn [summed]; try reflexivity. destruct (1 <? n); [apply IH|].
  rewrite <- bigsum_mul_l. apply bigsum_ext. intros j _. apply IH.
Qed.
Definition merge_fac (n o : nat) : nd K := if Nat.ltb 1 n then eye o else ones_nd [1; o].
Definition merge_facs (ns os : list nat) : list (nd K) := map (fun p => if Nat.ltb 1 (fst p) then eye (snd p) else ones_nd [1; snd p]) (combine ns os).
Lemma merge_facs_shape ns : forall os, length ns = length os -> map shp (merge_facs ns os) = pairs (merge_dims ns os) os.
Proof.
  induction ns as [|n ns IH]; intros [|o os] L; try discriminate; [reflexivity|]. cbn [merge_facs combine map fst snd merge_dims zip2 pairs].
  f_equal; [destruct (1 <? n); reflexivity|apply IH; auto].
Qed.
Lemma merge_facs_sum ns : forall os ks (f : list nat -> K), length ns = length os -> inr ks (merge_dims ns os) ->
  msum os (fun cs => kprod (zip2 get (merge_facs ns os) (pairs ks cs)) * f cs)%K = summed ns os ks f.
Proof.
  induction ns as [|n ns IH]; intros [|o os] ks f L Hk; try discriminate.
  - cbn [msum merge_facs combine map zip2 summed]. change (kprod []) with (k1 (s:=K)). ring.
  - change (merge_dims (n :: ns) (o :: os)) with ((if 1 <? n then o else 1) :: merge_dims ns os) in Hk. apply inr_cons_inv in Hk. destruct Hk as (k & ks' & -> & Hk & Hks).
    cbn [msum summed]. cbn [merge_facs combine map fst snd]. fold (merge_facs ns os).
    rewrite (bigsum_ext _ _ (fun c => get (merge_fac n o) (cons k (cons c nil)) * summed ns os ks' (fun l => f (c :: l)))%K).
    + unfold merge_fac. destruct (1 <? n).
      * rewrite (bigsum_ext _ _ (fun c => delta k c * summed ns os ks' (fun l => f (c :: l)))%K) by (intros c Hc; rewrite NdFacts.get_eye by assumption; reflexivity).
        apply (bigsum_delta_l o k (fun c => summed ns os ks' (fun l => f (c :: l)))). exact Hk.
      * apply bigsum_ext. intros c Hc. unfold ones_nd. rewrite get_tab by (apply inr_cons; [lia|apply inr_single; exact Hc]). ring.
    + intros c Hc. rewrite <- (IH os ks' (fun l => f (c :: l))) by auto. rewrite <- msum_mul_l. apply msum_ext. intros cs _. unfold pairs. cbn [zip2]. rewrite kprod_cons. fold (pairs ks' cs). fold (merge_fac n o). ring.
Qed.
Lemma merge_dims_len ns : forall os, length ns = length os -> length (merge_dims ns os) = length os.
Proof. intros os L. unfold merge_dims. rewrite zip2_length by exact L. exact L. Qed.
Lemma merge_dims_all (P : nat -> Prop) ns : P 1 -> forall os, Forall P os -> Forall P (merge_dims ns os).
Proof.
  intros P1. induction ns as [|n ns IH]; intros [|o os] H; try constructor; apply Forall_cons_iff in H; destruct H as [H1 H2].
  - destruct (1 <? n); assumption.
  - apply IH. exact H2.
Qed.
Lemma merge_dims_pos ns os : Forall (fun d => 0 < d) os -> Forall (fun d => 0 < d) (merge_dims ns os).
Proof. apply merge_dims_all. lia. Qed.
Lemma merge_dims_255 ns os : Forall (fun d => d <= 255) os -> Forall (fun d => d <= 255) (merge_dims ns os).
Proof. apply merge_dims_all. lia. Qed.
Lemma tshape_pos ns : forall hs, Forall (fun d => 0 < d) ns -> Forall (fun d => 0 < d) hs -> Forall (fun p => 0 < size p) (tshape ns hs).
Proof.
  induction ns as [|n ns IH]; intros [|h hs] A B; cbn [tshape zip2]; try apply Forall_nil; apply Forall_cons; apply Forall_cons_iff in A, B.
  - rewrite !size_cons, size_nil. assert (0 < h * h) by nia. nia.
  - apply IH; tauto.
Qed.
Theorem merge_other_spec (x o : ltens K) ns os hs : povm_ok x ns hs -> povm_ok o os hs ->
  exists z, merge_other x o = Ok z /\ povm_ok z (merge_dims ns os) hs /\
    forall ks is js, inr ks (merge_dims ns os) -> inr is hs -> inr js hs -> elem_of z ks is js = summed ns os ks (fun ls => elem_of o ls is js).
Proof.
  intros Hx Ho. destruct (povm_dims _ _ _ Hx) as (D1 & D2 & D3). destruct (povm_dims _ _ _ Ho) as (O1 & O2 & O3). pose proof (PfMpPovm.povm_len _ _ _ Ho) as P. destruct (povm_pos _ _ _ Ho) as [Po Ph].
  pose proof Hx as (_ & _ & L & _). pose proof Ho as (Hpos & Co & Lo & So & Bo). assert (Lno : length ns = length os) by lia.
  unfold merge_other. rewrite D1, O1. fold (merge_facs ns os).
  destruct (from_kron_spec (merge_facs ns os)) as (tr & Et & Ht & St & Rt & Ct & At).
  { intros E. apply (f_equal (@length _)) in E. unfold merge_facs in E. rewrite map_length, combine_length in E. cbn in E. lia. }
  { unfold merge_facs. apply Forall_map. apply Forall_forall. intros [a b] _. cbn [fst snd]. destruct (1 <? a); apply wf_tab. }
  rewrite Et. cbn [bind]. rewrite merge_facs_shape in St by exact Lno.
  pose proof (merge_dims_len ns os Lno) as Lm.
  assert (Hok : mpa_ok o) by apply Hpos.
  destruct (mdot_by tr o (AInt (-1) 0) tail_of head_of (singles (merge_dims ns os)) (squares hs) (singles os)) as (d & Ed & Hd & Sd & Rd & Cd & Ad).
  - exact Ht.
  - exact Hok.
  - rewrite St. apply pairs_tail. exact Lm.
  - rewrite So. apply tshape_head. exact Lo.
  - cbn [user_axes fst]. apply forms2; [rewrite !singles_len; exact Lm|]. intros a c _ Hc. apply in_singles in Hc. destruct Hc as (e & ->). apply form_last.
  - cbn [user_axes snd]. apply forms2; [rewrite singles_len, squares_len; symmetry; exact Lo|]. intros a c _ Hc. apply in_singles in Hc. destruct Hc as (e & ->). apply form_first.
  - rewrite Ed. cbn [bind]. unfold mppovm_new.
    destruct (mpa_new_chain (lts d)) as (z & Ez & Hz & Lz & C1 & C2); [apply Hd|apply Hd|]. rewrite Ez. cbn [bind].
    assert (Sz : mshape z = tshape (merge_dims ns os) hs).
    { unfold mshape. rewrite Lz. fold (mshape d). rewrite Sd. apply app_tshape. lia. }
    assert (Bd : bonds_pos d).
    { apply (dot_bonds_pos tr o); auto; [|apply (mpa_pos_bonds _ Hpos)]. apply ranks_pos; [exact Ht|]. eapply Forall_impl; [|exact Rt]. cbn. intros; lia. }
    exists z. split; [apply (povm_checks_ok _ (merge_dims ns os) hs); auto; [lia|apply merge_dims_255; exact Bo]|]. split.
    + split; [|split; [|split; [lia|split; [exact Sz|apply merge_dims_255; exact Bo]]]].
      * apply mpa_pos_parts; [exact Hz| |].
        -- unfold ranks. rewrite Lz. apply (pos_ranks d). exact Bd.
        -- rewrite Sz. apply tshape_pos; [apply merge_dims_pos; exact Po|exact Ph].
      * unfold cform_ok, cf_ok. rewrite C1, C2. unfold llen. rewrite Lz. destruct Hd as [Hd _]. destruct (lts d); [congruence|cbn [length]; lia].
    + intros ks is js Hk Hi Hj. unfold elem_of.
      assert (Li : length is = length os) by (rewrite (inr_length _ _ Hi); lia). assert (Lj : length js = length os) by (rewrite (inr_length _ _ Hj); lia). assert (Lk : length ks = length os) by (rewrite (inr_length _ _ Hk); lia).
      transitivity (entry d (triples ks is js)); [unfold entry, to_array; rewrite Lz; reflexivity|].
      rewrite <- app_triples by lia. rewrite Ad by (try apply singles_valid; try apply squares_valid; assumption). rewrite msums_singles.
      rewrite <- (merge_facs_sum ns os ks) by assumption. apply msum_ext. intros cs Hc. pose proof (inr_length _ _ Hc) as Lc.
      rewrite <- pairs_tail by lia. rewrite <- triples_head by lia. f_equal.
      rewrite entry_amp; [|exact Ht|unfold valid_idx; rewrite St; apply pairs_inr; assumption]. apply At. rewrite merge_facs_shape by exact Lno. apply pairs_inr; assumption.
Qed.

(** ** Pruning *)
Lemma dat_by (a : nd K) ns (f : list nat -> K) : Forall (fun d => 0 < d) ns -> ndwf a -> shp a = bigd ns -> (forall ks, inr ks ns -> get a (bigi ns ks) = f ks) ->
  dat a = map (fun i => f (unravel ns i)) (seq 0 (size ns)).
Proof.
  intros P W S H. assert (L : length (dat a) = size ns) by (rewrite W, S; apply size_bigd; exact P).
  apply (nth_ext _ _ k0 k0); [rewrite map_length, seq_length; exact L|]. intros i Hi. rewrite L in Hi.
  rewrite (nth_indep (map _ _) k0 (f (unravel ns 0))) by (rewrite map_length, seq_length; exact Hi). rewrite (map_nth (fun i => f (unravel ns i))), seq_nth by exact Hi. cbn [Nat.add].
  pose proof (unravel_inr ns i Hi) as Hu. rewrite <- H by exact Hu. unfold get. rewrite S, ravel_bigi by assumption. rewrite ravel_unravel by exact Hi. reflexivity.
Qed.
Lemma cform_full (z : ltens K) n : mpa_ok z -> canonical_form z = (0%Z, Z.of_nat n) -> n = llen z -> cform_ok z.
Proof.
  intros [Hn _] C ->. unfold canonical_form in C. injection C as E1 E2. unfold cform_ok, cf_ok. rewrite E1, E2. unfold llen in *. destruct (lts z); [congruence|]. cbn [length]. lia.
Qed.
Lemma prune_ones (z : ltens K) ns : mpa_ok z -> cform_ok z -> mshape z = singles ns -> Forall (fun d => 0 < d) ns ->
  exists y, prune z true = Ok y /\ ndwf (to_array y) /\ shp (to_array y) = bigd ns /\
    dat (to_array y) = map (fun i => entry z (singles (unravel ns i))) (seq 0 (size ns)).
Proof.
  intros Hz Fz Sz P1. destruct (prune_single_spec z Hz Fz) as (y & Ey & Hy & Sy & Ay). exists y. split; [exact Ey|]. rewrite Sz in *.
  assert (E1 : concat (pruned (map drop1 (singles ns))) = bigd ns).
  { transitivity (concat (filter has_legs (map drop1 (singles ns)))); [unfold pruned; destruct (filter has_legs (map drop1 (singles ns))); reflexivity|].
    clear - P1. induction P1 as [|n ns Hn P1 IH]; [reflexivity|]. change (map drop1 (singles (n :: ns))) with (drop1 [n] :: map drop1 (singles ns)). cbn [filter]. unfold bigd. cbn [filter]. fold (bigd ns).
    assert (E : drop1 [n] = if Nat.eqb n 1 then [] else [n]) by (unfold drop1; rewrite size_single; reflexivity). rewrite E.
    destruct (Nat.eqb_spec n 1) as [->|N]; cbn [has_legs]; [exact IH|]. rewrite (proj2 (Nat.ltb_lt 1 n)) by lia. change (has_legs [n]) with true. cbv iota. cbn [concat app]. f_equal. exact IH. }
  assert (W : ndwf (to_array y)) by apply wf_to_array. assert (S : shp (to_array y) = bigd ns) by (rewrite shp_to_array by apply Hy; rewrite Sy; exact E1).
  split; [exact W|]. split; [exact S|]. apply (dat_by _ ns (fun ks => entry z (singles ks))); auto. intros ks Hk.
  unfold entry. rewrite <- Ay by (apply singles_valid; exact Hk). f_equal.
  clear - P1 Hk. revert ks Hk. induction P1 as [|n ns Hn P1 IH]; intros ks Hk; [inversion Hk; reflexivity|]. apply inr_cons_inv in Hk. destruct Hk as (k & ks' & -> & Hk & Hks).
  cbn [singles map zip2 concat]. unfold bigi. cbn [combine filter map fst]. fold (bigi ns ks') (singles ns) (singles ks'). unfold drop1_idx at 1. rewrite size_single.
  destruct (Nat.eqb_spec n 1) as [->|N]; [exact (IH ks' Hks)|]. rewrite (proj2 (Nat.ltb_lt 1 n)) by lia. cbn [map snd app]. f_equal. apply IH. exact Hks.
Qed.

(** The sites with more than one pair of outcomes *)
Fixpoint kept {A : Type} (ns os : list nat) (l : list A) : list A :=
  match ns, os, l with
  | n :: ns', o :: os', a :: l' => if Nat.eqb (n * o) 1 then kept ns' os' l' else a :: kept ns' os' l'
  | _, _, _ => []
  end.
Lemma kept_inr ns : forall os ks l, inr ks l -> inr (kept ns os ks) (kept ns os l).
Proof.
  induction ns as [|n ns IH]; intros [|o os] ks l H; try constructor. destruct H as [|k d ks l Hk H]; [constructor|]. cbn [kept]. destruct (n * o =? 1); [apply IH; exact H|apply inr_cons; [exact Hk|apply IH; exact H]].
Qed.
Lemma kept_len {A B : Type} ns : forall os (l : list A) (m : list B), length l = length m -> length (kept ns os l) = length (kept ns os m).
Proof. induction ns as [|n ns IH]; intros [|o os] [|a l] [|b m] L; try discriminate; try reflexivity. cbn [kept]. destruct (n * o =? 1); cbn [length]; auto. Qed.
Lemma kept_size ns : forall os, length ns = length os -> Forall (fun d => 0 < d) ns -> Forall (fun d => 0 < d) os ->
  size (kept ns os ns) = size ns /\ size (kept ns os os) = size os /\ bigd (kept ns os ns) = bigd ns /\ bigd (kept ns os os) = bigd os.
Proof.
  induction ns as [|n ns IH]; intros [|o os] L Pn Po; try discriminate; [repeat split|]. apply Forall_cons_iff in Pn, Po. destruct Pn as [Pn' Pn], Po as [Po' Po].
  destruct (IH os) as (I1 & I2 & I3 & I4); auto. cbn [kept]. destruct (Nat.eqb_spec (n * o) 1) as [E|E].
  - assert (n = 1 /\ o = 1) as [-> ->] by nia. rewrite !size_cons, I1, I2, I3, I4. repeat split; lia.
  - rewrite !size_cons, I1, I2. unfold bigd in *. cbn [filter]. rewrite I3, I4. auto.
Qed.
Lemma kept_ravel ns : forall os, length ns = length os -> Forall (fun d => 0 < d) ns -> Forall (fun d => 0 < d) os ->
  forall ks ls, inr ks ns -> inr ls os -> ravel (kept ns os ns) (kept ns os ks) = ravel ns ks /\ ravel (kept ns os os) (kept ns os ls) = ravel os ls.
Proof.
  induction ns as [|n ns IH]; intros [|o os] L Pn Po ks ls Hk Hl; try discriminate; [inversion Hk; inversion Hl; subst; split; reflexivity|]. apply Forall_cons_iff in Pn, Po. destruct Pn as [Pn' Pn], Po as [Po' Po].
  apply inr_cons_inv in Hk, Hl. destruct Hk as (k & ks' & -> & Hk & Hks). destruct Hl as (l & ls' & -> & Hl & Hls).
  destruct (IH os) with (ks := ks') (ls := ls') as [I1 I2]; auto. destruct (kept_size ns os) as (Z1 & Z2 & _); auto. cbn [kept]. destruct (Nat.eqb_spec (n * o) 1) as [E|E].
  - assert (n = 1 /\ o = 1) as [-> ->] by nia. assert (k = 0) as -> by lia. assert (l = 0) as -> by lia. cbn [ravel]. rewrite I1, I2. split; reflexivity.
  - cbn [ravel]. rewrite I1, I2, Z1, Z2. split; reflexivity.
Qed.
Lemma kept_pairs ns : forall os, length ns = length os -> filter has_legs (map drop1 (pairs ns os)) = pairs (kept ns os ns) (kept ns os os).
Proof.
  induction ns as [|n ns IH]; intros [|o os] L; try discriminate; [reflexivity|]. cbn [pairs zip2 map kept filter]. fold (pairs ns os).
  assert (E : drop1 [n; o] = if n * o =? 1 then [] else [n; o]) by (unfold drop1; rewrite !size_cons, size_nil, Nat.mul_1_r; reflexivity). rewrite E.
  destruct (n * o =? 1); cbn [has_legs]; [apply IH; auto|]. change (has_legs [n; o]) with true. cbv iota. cbn [pairs zip2]. f_equal. apply IH; auto.
Qed.
Lemma kept_idx ns : forall os, length ns = length os -> forall ks ls, length ks = length ns -> length ls = length ns ->
  concat (zip2 drop1_idx (pairs ns os) (pairs ks ls)) = concat (pairs (kept ns os ks) (kept ns os ls)).
Proof.
  induction ns as [|n ns IH]; intros [|o os] L [|k ks] [|l ls] Lk Ll; try discriminate; [reflexivity|]. cbn [pairs zip2 concat kept]. fold (pairs ns os) (pairs ks ls). unfold drop1_idx at 1. rewrite !size_cons, size_nil, Nat.mul_1_r.
  destruct (n * o =? 1); [|cbn [zip2 concat app]; do 2 f_equal]; apply IH; auto.
Qed.
Lemma pairs_legs2 ns : forall os, length ns = length os -> two_legs (pairs ns os) /\ leg1 (pairs ns os) = ns /\ leg2 (pairs ns os) = os.
Proof.
  induction ns as [|n ns IH]; intros [|o os] L; try discriminate; [repeat split; constructor|]. destruct (IH os) as (I1 & I2 & I3); [auto|]. cbn [pairs zip2 leg1 leg2 map] in *. fold (pairs ns os). unfold leg1, leg2 in *. rewrite I2, I3. repeat split. constructor; [reflexivity|exact I1].
Qed.
Lemma prune_pairs (z : ltens K) ns os : mpa_ok z -> cform_ok z -> mshape z = pairs ns os -> length ns = length os -> Forall (fun d => 0 < d) ns -> Forall (fun d => 0 < d) os ->
  exists y a, prune z true = Ok y /\ to_array_global y = Ok a /\ let b := reshape a (filter (fun d => Nat.ltb 1 d) (shp a)) in
    ndwf b /\ shp b = bigd ns ++ bigd os /\ dat b = table (size ns) (size os) (fun i j => entry z (pairs (unravel ns i) (unravel os j))).
Proof.
  intros Hz Fz Sz L Pn Po. destruct (prune_single_spec z Hz Fz) as (y & Ey & Hy & Sy & Ay). exists y. rewrite Sz in *. unfold pruned in Sy. rewrite kept_pairs in Sy by exact L.
  destruct (kept_size ns os L Pn Po) as (Z1 & Z2 & B1 & B2).
  pose proof (kept_len ns os ns os L) as Lk.
  assert (G : exists a, to_array_global y = Ok a /\ ndwf a /\ shp a = kept ns os ns ++ kept ns os os /\
     forall ks ls, inr ks ns -> inr ls os -> get a (kept ns os ks ++ kept ns os ls) = get (to_array y) (concat (pairs (kept ns os ks) (kept ns os ls)))).
  { destruct (pairs (kept ns os ns) (kept ns os os)) as [|p ps] eqn:Ep.
    - assert (En : kept ns os ns = []) by (destruct (kept ns os ns), (kept ns os os); try discriminate; reflexivity).
      assert (Eo : kept ns os os = []) by (rewrite En in Lk; destruct (kept ns os os); [reflexivity|discriminate]).
      assert (Sa : shp (to_array y) = []) by (rewrite shp_to_array, Sy by apply Hy; reflexivity).
      unfold to_array_global, local_to_global, ndim. rewrite Sa. assert (Ll : llen y = 1) by (rewrite <- mshape_length, Sy; reflexivity). rewrite Ll. cbn [Nat.eqb length Nat.add Nat.sub Nat.modulo Nat.divmod snd passert].
      eexists. split; [reflexivity|]. split; [apply wf_transpose|]. split; [rewrite shp_transpose, Sa, En, Eo; reflexivity|].
      intros ks ls Hk Hl. pose proof (kept_inr ns os _ _ Hk) as Hk'. pose proof (kept_inr ns os _ _ Hl) as Hl'. rewrite En in Hk'. rewrite Eo in Hl'. inversion Hk'; inversion Hl'; subst. cbn [pairs zip2 concat app].
      transitivity (get (transpose (to_array y) (l2g_order 0 1 0 0)) (gather (l2g_order 0 1 0 0) [])); [reflexivity|]. rewrite get_transpose_gather; [reflexivity|constructor|unfold ndim; rewrite Sa; reflexivity|rewrite Sa; constructor].
    - destruct (pairs_legs2 (kept ns os ns) (kept ns os os) Lk) as (T & T1 & T2). rewrite Ep in T, T1, T2. destruct (to_array_global_pairs y Hy) as (a & Ea & Wa & Sa & Ga); [rewrite Sy; exact T|]. rewrite Sy, T1, T2 in Sa, Ga.
      exists a. split; [exact Ea|]. split; [exact Wa|]. split; [exact Sa|]. intros ks ls Hk Hl. rewrite Ga by (apply kept_inr; assumption). reflexivity. }
  destruct G as (a & Ea & Wa & Sa & Ga). exists a. split; [exact Ey|]. split; [exact Ea|]. cbn zeta.
  assert (E1 : filter (fun d => 1 <? d) (shp a) = bigd ns ++ bigd os) by (rewrite Sa, filter_app; fold (bigd (kept ns os ns)) (bigd (kept ns os os)); rewrite B1, B2; reflexivity).
  rewrite E1. assert (ES : size (bigd ns ++ bigd os) = size (shp a)) by (rewrite Sa, !size_app, !size_bigd, Z1, Z2 by assumption; reflexivity).
  split; [apply wf_reshape; assumption|]. split; [reflexivity|].
  apply (table_eq _ _ k0); [cbn [reshape dat]; rewrite Wa, <- ES, size_app, !size_bigd by assumption; reflexivity|].
  intros i j Hi Hj. cbn [reshape dat]. pose proof (unravel_inr ns i Hi) as Ui. pose proof (unravel_inr os j Hj) as Uj.
  unfold entry. rewrite <- Ay by (apply pairs_inr; assumption). rewrite kept_idx by (rewrite ?(inr_length _ _ Ui), ?(inr_length _ _ Uj); auto). rewrite <- Ga by assumption.
  destruct (kept_ravel ns os L Pn Po _ _ Ui Uj) as [R1 R2]. unfold get. rewrite Sa, ravel_app by (apply kept_inr; exact Ui). rewrite R1, R2, Z2, !ravel_unravel by assumption. reflexivity.
Qed.

(** ** Inner products and squared norms *)
Lemma entry_conj (x c : ltens K) is : mpa_ok x -> mpa_ok c -> mshape c = mshape x -> (forall is, amp (lts c) is 0 0 = kconj (amp (lts x) is 0 0)) -> valid_idx is (mshape x) -> entry c is = kconj (entry x is).
Proof. intros Hx Hc S A Hi. rewrite !entry_amp; auto. unfold valid_idx in *. rewrite S. exact Hi. Qed.
Lemma gram_dot (x o : ltens K) ns os hs : povm_ok x ns hs -> povm_ok o os hs ->
  exists c d, mconj x = Ok c /\ mdot c o (ASeq [1; 2] [1; 2])%Z = Ok d /\ mpa_ok d /\ cform_ok d /\ mshape d = pairs ns os /\
    forall ks ls, inr ks ns -> inr ls os -> entry d (pairs ks ls) = hsin hs (elem_of x ks) (elem_of o ls).
Proof.
  intros Hx Ho. pose proof Hx as (Px & Cx & L & Sx & _). pose proof Ho as (Po & Co & Lo & So & _). destruct Px as [Kx _], Po as [Ko _].
  destruct (mconj_spec x Kx Cx) as (c & Ec & Hc & Sc & Rc & _ & _ & Ac). exists c.
  destruct (mdot_by c o (ASeq [1; 2] [1; 2])%Z tail_of tail_of (singles ns) (singles os) (squares hs)) as (d & Ed & Hd & Sd & Rd & Cd & Ad).
  - exact Hc.
  - exact Ko.
  - rewrite Sc, Sx. apply tshape_tail. exact L.
  - rewrite So. apply tshape_tail. exact Lo.
  - cbn [user_axes fst]. apply forms2; [rewrite singles_len, squares_len; exact L|]. intros a e Ha He. apply in_singles in Ha. apply in_squares in He. destruct Ha as (n & ->), He as (h & ->). apply form_12.
  - cbn [user_axes snd]. apply forms2; [rewrite singles_len, squares_len; exact Lo|]. intros a e Ha He. apply in_singles in Ha. apply in_squares in He. destruct Ha as (n & ->), He as (h & ->). apply form_12.
  - exists d. split; [exact Ec|]. split; [exact Ed|]. split; [exact Hd|]. rewrite app_pairs in Sd by lia.
    split. { apply (cform_full d _ Hd Cd). rewrite <- !mshape_length, Sc, Sx, Sd. unfold pairs. rewrite tshape_length, zip2_length by lia. reflexivity. }
    split; [exact Sd|]. intros ks ls Hk Hl. pose proof (inr_length _ _ Hk) as L1. pose proof (inr_length _ _ Hl) as L2.
    rewrite <- app_pairs by lia. rewrite Ad by (apply singles_valid; assumption). rewrite msums_squares. unfold hsin. apply msum_ext. intros is Hi. apply msum_ext. intros js Hj.
    pose proof (inr_length _ _ Hi) as L3. pose proof (inr_length _ _ Hj) as L4. rewrite !tail_triples by lia. unfold elem_of. f_equal.
    apply entry_conj; auto. unfold valid_idx. rewrite Sx. apply triples_valid; assumption.
Qed.
Theorem inner_arr_spec (x o : ltens K) ns os hs : povm_ok x ns hs -> povm_ok o os hs ->
  exists a, inner_arr x o = Ok a /\ ndwf a /\ shp a = bigd ns ++ bigd os /\
    dat a = table (size ns) (size os) (fun i j => hsin hs (elem_of x (unravel ns i)) (elem_of o (unravel os j))).
Proof.
  intros Hx Ho. destruct (gram_dot x o ns os hs Hx Ho) as (c & d & Ec & Ed & Hd & Cd & Sd & Ad). unfold inner_arr. rewrite Ec. cbn [bind]. rewrite Ed. cbn [bind].
  destruct (povm_pos _ _ _ Hx) as [Pn _]. destruct (povm_pos _ _ _ Ho) as [Po _]. pose proof Hx as (_ & _ & L & _). pose proof Ho as (_ & _ & Lo & _).
  destruct (prune_pairs d ns os Hd Cd Sd) as (y & a & Ey & Ea & W & S & D); auto; [lia|]. rewrite Ey. cbn [bind]. rewrite Ea. cbn [bind]. eexists. split; [reflexivity|]. split; [exact W|]. split; [exact S|]. rewrite D.
  apply table_ext. intros i j Hi Hj. apply Ad; apply unravel_inr; assumption.
Qed.
Lemma eye3_sum ns : forall ks (f : list nat -> list nat -> K), inr ks ns ->
  msum ns (fun as_ => msum ns (fun bs => kprod (zip2 get (map (eye3d (K:=K)) ns) (triples ks as_ bs)) * f as_ bs))%K = f ks ks.
Proof.
  induction ns as [|n ns IH]; intros ks f Hk; [inversion Hk; subst; cbn [msum map zip2]; unfold triples; cbn; ring|].
  apply inr_cons_inv in Hk. destruct Hk as (k & ks' & -> & Hk & Hks). cbn [msum map].
  rewrite (bigsum_ext _ _ (fun a => delta k a * f (a :: ks') (a :: ks')))%K; [apply (bigsum_delta_l n k (fun a => f (a :: ks') (a :: ks'))); exact Hk|].
  intros a Ha.
  transitivity (msum ns (fun is => bigsum n (fun b => delta a b * (delta k a * msum ns (fun js => kprod (zip2 get (map (eye3d (K:=K)) ns) (triples ks' is js)) * f (a :: is) (b :: js)))))%K).
  - apply msum_ext. intros is _. apply bigsum_ext. intros b Hb. rewrite <- !msum_mul_l. apply msum_ext. intros js _. rewrite triples_cons. cbn [zip2]. rewrite kprod_cons. unfold eye3d at 1. rewrite get_tab by (repeat (apply inr_cons; [assumption|]); constructor). cbn [nth].
    unfold delta. destruct (k =? a), (a =? b); cbn [andb]; ring.
  - transitivity (msum ns (fun is => delta k a * msum ns (fun js => kprod (zip2 get (map (eye3d (K:=K)) ns) (triples ks' is js)) * f (a :: is) (a :: js)))%K).
    + apply msum_ext. intros is _. apply (bigsum_delta_l n a (fun b => delta k a * msum ns (fun js => kprod (zip2 get (map (eye3d (K:=K)) ns) (triples ks' is js)) * f (a :: is) (b :: js)))%K). exact Ha.
    + rewrite msum_mul_l. f_equal. apply (IH ks' (fun is js => f (a :: is) (a :: js))). exact Hks.
Qed.
Theorem normsq_arr_spec (x : ltens K) ns hs : povm_ok x ns hs ->
  exists a, normsq_arr x = Ok a /\ ndwf a /\ shp a = bigd ns /\ dat a = map (fun i => hsin hs (elem_of x (unravel ns i)) (elem_of x (unravel ns i))) (seq 0 (size ns)).
Proof.
  intros Hx. destruct (gram_dot x x ns ns hs Hx Hx) as (c & d & Ec & Ed & Hd & Cd & Sd & Ad). unfold normsq_arr. rewrite Ec. cbn [bind]. rewrite Ed. cbn [bind].
  destruct (povm_dims _ _ _ Hx) as (D1 & D2 & D3). destruct (povm_pos _ _ _ Hx) as [Pn _]. pose proof (PfMpPovm.povm_len _ _ _ Hx) as P. pose proof Hx as (_ & _ & L & _). rewrite D1.
  destruct (from_kron_spec (map (eye3d (K:=K)) ns)) as (e & Ee & He & Se & Re & Ce & Ae).
  { destruct ns; [cbn in L; lia|discriminate]. }
  { apply Forall_map. apply Forall_forall. intros n _. apply wf_tab. }
  rewrite Ee. cbn [bind]. rewrite map_map in Se. rewrite (map_ext _ (fun n => [n; n; n])) in Se by reflexivity.
  destruct (mdot_by e d (ASeq [1; 2] [0; 1])%Z tail_of head_of (singles ns) (map (fun _ => []) ns) (squares ns)) as (z & Ez & Hz & Sz & Rz & Cz & Az).
  - exact He.
  - exact Hd.
  - rewrite Se. clear. induction ns as [|n ns IH]; [reflexivity|]. cbn. f_equal. exact IH.
  - rewrite Sd. clear. induction ns as [|n ns IH]; [reflexivity|]. cbn. f_equal. exact IH.
  - cbn [user_axes fst]. apply forms2; [rewrite singles_len, squares_len; reflexivity|]. intros a f Ha Hf. apply in_singles in Ha. apply in_squares in Hf. destruct Ha as (n & ->), Hf as (h & ->). apply form_12.
  - cbn [user_axes snd]. apply forms2; [rewrite map_length, squares_len; reflexivity|]. intros a f Ha Hf. apply in_squares in Hf. destruct Hf as (h & ->). apply in_map_iff in Ha. destruct Ha as (n & <- & _). apply form_01.
  - rewrite Ez. cbn [bind]. assert (Sz' : mshape z = singles ns). { rewrite Sz. clear. induction ns as [|n ns IH]; [reflexivity|]. cbn. f_equal. exact IH. }
    destruct (prune_ones z ns Hz) as (y & Ey & W & S & D); auto.
    { apply (cform_full z _ Hz Cz). rewrite <- !mshape_length, Se, Sz'. unfold singles. rewrite !map_length. reflexivity. }
    rewrite Ey. cbn [bind]. eexists. split; [reflexivity|]. split; [exact W|]. split; [exact S|]. rewrite D. apply map_ext_in. intros i Hi. apply in_seq in Hi. pose proof (unravel_inr ns i ltac:(lia)) as Hu. set (ks := unravel ns i) in *. clearbody ks.
    pose proof (inr_length _ _ Hu) as Lk.
    rewrite <- Ad by exact Hu. transitivity (entry z (zip2 (@app nat) (singles ks) (map (fun _ => []) ks))).
    { f_equal. clear. induction ks as [|k ks IH]; [reflexivity|]. cbn. f_equal. exact IH. }
    rewrite Az; [|apply singles_valid; exact Hu|]. 2:{ clear - Lk. revert ns Lk. induction ks as [|k ks IH]; intros [|n ns] Lk; try discriminate; [constructor|]. cbn [map]. constructor; [constructor|apply IH; auto]. }
    rewrite msums_squares. rewrite <- (eye3_sum ns ks (fun a b => entry d (pairs a b))) by exact Hu. apply msum_ext. intros as_ Ha. apply msum_ext. intros bs Hb.
    pose proof (inr_length _ _ Ha) as L1. pose proof (inr_length _ _ Hb) as L2. rewrite tail_triples by lia. f_equal.
    + assert (V : Forall2 inr (triples ks as_ bs) (map (fun n => [n; n; n]) ns)).
      { clear - Hu Ha Hb. revert as_ bs Ha Hb. induction Hu as [|k n ks ns Hk Hu IH]; intros as_ bs Ha Hb; [inversion Ha; inversion Hb; subst; constructor|].
        apply inr_cons_inv in Ha, Hb. destruct Ha as (a & as' & -> & Ha & Has). destruct Hb as (b & bs' & -> & Hb & Hbs). rewrite triples_cons. cbn [map]. constructor; [repeat (apply inr_cons; [assumption|]); constructor|apply IH; assumption]. }
      rewrite entry_amp; [|exact He|unfold valid_idx; rewrite Se; exact V]. apply Ae. rewrite map_map. rewrite (map_ext _ (fun n => [n; n; n])) by reflexivity. exact V.
    + f_equal. clear - L1 L2 Lk. revert as_ bs ns L1 L2 Lk. induction ks as [|k ks IH]; intros [|a as_] [|b bs] [|n ns] L1 L2 Lk; try discriminate; [reflexivity|]. cbn. f_equal. apply (IH as_ bs ns); auto.
Qed.
End Gen.
