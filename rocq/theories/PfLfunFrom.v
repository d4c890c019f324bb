(** [MPPovmList.lfun_from] and [est_lfun_from] (mppovm.py 955-1020, 1439-1533): the estimator built
    from the matching elements of another list of MP-POVMs. *)
From Coq Require Import Reals Lra.
From Verif Require Export PfEstExact.
Open Scope nat_scope.
Add Ring Cr : (k_ring CS).

(** ** Lists *)
Definition grid (n m : nat) : list (nat * nat) := flat_map (fun i => map (pair i) (seq 0 m)) (seq 0 n).
Lemma filter_map_comm {A B : Type} (f : A -> B) (p : B -> bool) l : filter p (map f l) = map f (filter (fun a => p (f a)) l).
Proof. induction l as [|a l IH]; [reflexivity|]. cbn [map filter]. rewrite IH. destruct (p (f a)); reflexivity. Qed.
Lemma flat_map_map {A B C : Type} (f : A -> B) (g : nat -> list A) l : map f (flat_map g l) = flat_map (fun a => map f (g a)) l.
Proof. induction l as [|a l IH]; [reflexivity|]. cbn [flat_map]. rewrite map_app, IH. reflexivity. Qed.
Lemma in_grid n m i j : In (i, j) (grid n m) <-> i < n /\ j < m.
Proof.
  unfold grid. rewrite in_flat_map. split.
  - intros (a & Ha & H). apply in_seq in Ha. apply in_map_iff in H. destruct H as (b & E & Hb). injection E as <- <-. apply in_seq in Hb. lia.
  - intros [Hi Hj]. exists i. split; [apply in_seq; lia|]. apply in_map. apply in_seq. lia.
Qed.
Lemma rsum_filter {A : Type} (p : A -> bool) (f : A -> R) l : rsum (map f (filter p l)) = rsum (map (fun a => if p a then f a else 0%R) l).
Proof. induction l as [|a l IH]; [reflexivity|]. cbn [filter map]. rewrite rsum_cons, <- IH. destruct (p a); cbn [map]; rewrite ?rsum_cons; lra. Qed.
Lemma rsum_flat {A B : Type} (g : A -> list B) (f : B -> R) l : rsum (map f (flat_map g l)) = rsum (map (fun a => rsum (map f (g a))) l).
Proof. induction l as [|a l IH]; [reflexivity|]. cbn [flat_map map]. rewrite map_app, rsum_app, rsum_cons, IH. reflexivity. Qed.
Lemma rsum_grid n m (f : nat * nat -> R) : rsum (map f (grid n m)) = rbig n (fun i => rbig m (fun j => f (i, j))).
Proof. unfold grid. rewrite rsum_flat, rbig_rsum. f_equal. apply map_ext. intros i. rewrite map_map, rbig_rsum. reflexivity. Qed.
Lemma iter_comm {A : Type} (g : A -> A) n : forall z, Nat.iter n g (g z) = g (Nat.iter n g z).
Proof. induction n as [|n IH]; intros z; [reflexivity|]. cbn [Nat.iter nat_rect]. unfold Nat.iter in *. cbn. rewrite IH. reflexivity. Qed.
Lemma fold_count {A B : Type} (p : A -> bool) (g : B -> B) l : forall z, fold_left (fun z e => if p e then g z else z) l z = Nat.iter (length (filter p l)) g z.
Proof.
  induction l as [|a l IH]; intros z; [reflexivity|]. cbn [fold_left filter]. rewrite IH. destruct (p a); [|reflexivity]. cbn [length]. rewrite iter_comm. reflexivity.
Qed.
Lemma grid_row p n m i : i < n -> filter (fun q => Nat.eqb (fst q) i) (filter p (grid n m)) = map (pair i) (filter (fun j => p (i, j)) (seq 0 m)).
Proof.
  intros Hi. rewrite filter_comm. unfold grid. rewrite (filter_row (fun q : nat * nat => fst q) n m pair i) by (auto; reflexivity). apply filter_map_comm.
Qed.
(** ** Accumulators *)
Definition acc_step (i : nat) (z : Z) (e : lent * R) : Z := if Nat.eqb i (e_out (fst e)) then rtrunc (IZR z + snd e) else z.
Lemma accumulate_nth n i es : i < n -> nth i (accumulate n es) 0%Z = fold_left (acc_step i) es 0%Z.
Proof.
  intros Hi. unfold accumulate.
  assert (G : forall acc, length acc = n -> nth i (fold_left (fun acc e => map (fun p => if Nat.eqb (fst p) (e_out (fst e)) then rtrunc (IZR (snd p) + snd e) else snd p) (combine (seq 0 n) acc)) es acc) 0%Z = fold_left (acc_step i) es (nth i acc 0%Z)).
  { induction es as [|e es IH]; intros acc L; [reflexivity|]. cbn [fold_left]. rewrite IH by (rewrite map_length, combine_length, seq_length; lia). f_equal.
    set (g := fun p : nat * Z => if Nat.eqb (fst p) (e_out (fst e)) then rtrunc (IZR (snd p) + snd e) else snd p).
    rewrite (nth_indep _ 0%Z (g (0, 0%Z))) by (rewrite map_length, combine_length, seq_length; lia). rewrite map_nth, combine_nth by (rewrite seq_length; lia). rewrite seq_nth by exact Hi. reflexivity. }
  rewrite G by apply repeat_length. f_equal. apply nth_repeat.
Qed.
Lemma accumulate_length n es : length (accumulate n es) = n.
Proof.
  unfold accumulate. assert (G : forall acc : list Z, length acc = n -> length (fold_left (fun acc (e : lent * R) => map (fun p => if Nat.eqb (fst p) (e_out (fst e)) then rtrunc (IZR (snd p) + snd e) else snd p) (combine (seq 0 n) acc)) es acc) = n).
  { induction es as [|e es IH]; intros acc L; [exact L|]. cbn [fold_left]. apply IH. rewrite map_length, combine_length, seq_length. lia. }
  apply G, repeat_length.
Qed.

(** ** Measurements: a POVM with its numbers of outcomes and its probabilities (for a given state) *)
Record meas : Type := mkMeas { me_x : ltens CS; me_n : list nat; me_p : list nat -> R }.
Section Tol.
Variables (hs : list nat) (eps : R).
(** Element [ks] of [a] matches the (summed) element [ls] of [b] *)
Definition mte (a b : meas) (ks ls : list nat) : bool :=
  Rleb (Rabs (overlap hs (elem_of (me_x a) ks) (summed_elem (me_n a) (me_n b) (me_x b) ls) - 1)) eps.
Definition pfe (a b : meas) (ks ls : list nat) : R := sqrt (hsn2 hs (elem_of (me_x a) ks) / hsn2 hs (summed_elem (me_n a) (me_n b) (me_x b) ls)).
Definition msd (a b : meas) : list nat := merge_dims (me_n a) (me_n b).
(** Number of matching elements of [b] *)
Definition nme (a b : meas) (ks : list nat) : nat := length (filter (mte a b ks) (outcomes (msd a b))).
(** The contribution of one outcome of [b] *)
Definition she (a b : meas) (ks ls : list nat) : R := if mte a b ks (proj (me_n a) ls) then pfe a b ks (proj (me_n a) ls) else 0%R.
(** Total weight, and the integer accumulator *)
Definition total_w (OW : list (meas * R)) (a : meas) (ks : list nat) : R := rsum (map (fun q => snd q * INR (nme a (fst q) ks))%R OW).
Definition acc_w (OW : list (meas * R)) (a : meas) (ks : list nat) : Z :=
  fold_left (fun z q => Nat.iter (nme a (fst q) ks) (fun z => rtrunc (IZR z + snd q)) z) OW 0%Z.

Section Pair.
Variables a b : meas.
Let x := me_x a. Let o := me_x b. Let ns := me_n a. Let os := me_n b. Let ms := msd a b.
Hypothesis Hx : povm_ok x ns hs.
Hypothesis Ho : povm_ok o os hs.
Let Pn : Forall (fun d => 0 < d) ns := proj1 (povm_pos _ _ _ Hx).
Let Po : Forall (fun d => 0 < d) os := proj1 (povm_pos _ _ _ Ho).
Let Pm : Forall (fun d => 0 < d) ms := merge_dims_pos ns os Po.
Let L : length ns = length os.
Proof. pose proof Hx as (_ & _ & L1 & _). pose proof Ho as (_ & _ & L2 & _). lia. Qed.
Definition mij (q : nat * nat) : bool := mte a b (unravel ns (fst q)) (unravel ms (snd q)).
Lemma argwhere_tab : argwhere (match_tab hs ns os x o eps) = map (fun q => (fst q, snd q, Fin (pfe a b (unravel ns (fst q)) (unravel ms (snd q))))) (filter mij (grid (size ns) (size ms))).
Proof.
  unfold argwhere. change (m_o (match_tab hs ns os x o eps)) with (bigd ms). change (m_s (match_tab hs ns os x o eps)) with (bigd ns). rewrite !size_bigd by assumption.
  set (T := match_tab hs ns os x o eps).
  assert (E : flat_map (fun i => map (fun j => (i, j, nth (i * size ms + j) (m_pref T) NaN)) (seq 0 (size ms))) (seq 0 (size ns)) = map (fun q => (fst q, snd q, nth (fst q * size ms + snd q) (m_pref T) NaN)) (grid (size ns) (size ms))).
  { unfold grid. rewrite (flat_map_map (C := nat)). apply flat_map_ext. intros i. rewrite map_map. reflexivity. }
  rewrite E, filter_map_comm. cbn [fst snd].
  assert (M : forall q, In q (grid (size ns) (size ms)) -> nth (fst q * size ms + snd q) (m_match T) false = mij q).
  { intros [i j] Hq. apply in_grid in Hq. unfold T, match_tab. cbn [m_match fst snd]. fold ms. change (merge_dims ns os) with ms. rewrite table_nth by apply Hq. reflexivity. }
  rewrite (filter_ext_in _ _ _ M). apply map_ext_in. intros [i j] Hq. apply filter_In in Hq. destruct Hq as [Hq Hm]. apply in_grid in Hq. cbn [fst snd]. f_equal.
  unfold T, match_tab. cbn [m_pref]. change (merge_dims ns os) with ms. rewrite table_nth by apply Hq. unfold mij in Hm. cbn [fst snd] in Hm. unfold mte in Hm. fold x o ns os in Hm. rewrite Hm. reflexivity.
Qed.
Lemma nme_count i : i < size ns -> length (filter (fun q => Nat.eqb (fst q) i) (filter mij (grid (size ns) (size ms)))) = nme a b (unravel ns i).
Proof. intros Hi. rewrite grid_row by exact Hi. rewrite map_length. unfold nme, outcomes. fold ms. rewrite filter_map_comm, map_length. reflexivity. Qed.
(** The function that tests for an outcome *)
Definition tst (j : nat) : ofun := fun row => if row_is (bigd ms) j (columns (other_support x o) row) then 1%R else 0%R.
Lemma tst_eq j l : j < size ms -> inr l os -> tst j (rowZ (bigi os l)) = if Nat.eqb (ravel ms (proj ns l)) j then 1%R else 0%R.
Proof.
  intros Hj Hl. unfold tst. destruct (povm_dims _ _ _ Hx) as (Dx & _ & Lx), (povm_dims _ _ _ Ho) as (Do & _ & Lo).
  pose proof (inr_length _ _ Hl). rewrite (columns_eq x o ns os l) by (assumption || lia). change ms with (merge_dims ns os) in *. rewrite (row_is_part ns os l j) by assumption. reflexivity.
Qed.
Lemma pair_entries pos w coeff : nonzero_elems hs ns os x o -> (0 <= eps)%R ->
  member_entries x coeff eps (pos, (o, w)) =
  Ok (map (fun q => (mkE pos (fst q) (tst (snd q)) (Fin (nth (fst q) coeff 0 * w * pfe a b (unravel ns (fst q)) (unravel ms (snd q)))%R), w)) (filter mij (grid (size ns) (size ms)))).
Proof.
  intros NZ He. unfold member_entries. rewrite (match_elems_spec x o ns os hs [] eps) by (first [assumption|intros []; fail]). cbv zeta. replace (dup_ok (match_tab hs ns os x o eps) []) with true by reflexivity. cbn [bind].
  destruct (povm_dims _ _ _ Hx) as (Dx & _ & Lx), (povm_dims _ _ _ Ho) as (Do & _ & Lo).
  change (m_s (match_tab hs ns os x o eps)) with (bigd ns). change (m_o (match_tab hs ns os x o eps)) with (bigd ms).
  assert (E : length (bigd ns) + length (bigd ms) = length (nsoutdims x) + length (other_support x o)).
  { unfold nsoutdims. rewrite Dx. change (filter (fun d => 1 <? d) ns) with (bigd ns). f_equal.
    pose proof (columns_eq x o ns os (map (fun _ => 0) os) Dx Do L ltac:(lia) ltac:(apply map_length)) as C. apply (f_equal (@length Z)) in C. unfold columns, rowZ in C. rewrite !map_length in C. rewrite C.
    symmetry. apply bigi_len. apply inr_length. apply proj_inr; [exact L|]. apply zeros_inr. exact Po. }
  rewrite E, Nat.eqb_refl. cbn [passert]. rewrite argwhere_tab, map_map. reflexivity.
Qed.
End Pair.

(** ** One member of [self] *)
Definition entsf (OW : list (meas * R)) (a : meas) (c : list nat -> R) (q : meas * R) : list (flt * ofun) :=
  let ns := me_n a in let ms := msd a (fst q) in
  map (fun ij => (fdiv (Fin (c (bigi ns (unravel ns (fst ij))) * snd q * pfe a (fst q) (unravel ns (fst ij)) (unravel ms (snd ij)))%R) (Fin (IZR (acc_w OW a (unravel ns (fst ij))))), tst a (fst q) (snd ij)))
    (filter (mij a (fst q)) (grid (size ns) (size ms))).
Definition ents (OW : list (meas * R)) (a : meas) (c : list nat -> R) (q : meas * R) : list (R * ofun) :=
  let ns := me_n a in let ms := msd a (fst q) in
  map (fun ij => ((c (bigi ns (unravel ns (fst ij))) * snd q * pfe a (fst q) (unravel ns (fst ij)) (unravel ms (snd ij)) / IZR (acc_w OW a (unravel ns (fst ij))))%R, tst a (fst q) (snd ij)))
    (filter (mij a (fst q)) (grid (size ns) (size ms))).
(** The coefficient array *)
Definition coeff_arr (a : meas) (c : list nat -> R) : list nat * list R := (bigd (me_n a), map c (outcomes (bigd (me_n a)))).
Lemma outcomes_nth {A : Type} ds (f : list nat -> A) d i : i < size ds -> nth i (map f (outcomes ds)) d = f (unravel ds i).
Proof.
  intros Hi. rewrite (nth_indep _ d (f (unravel ds 0))) by (unfold outcomes; rewrite !map_length, seq_length; exact Hi). unfold outcomes. rewrite map_map, (map_nth (fun k => f (unravel ds k))), seq_nth by exact Hi. reflexivity.
Qed.
Lemma fold_concat {A B : Type} (f : B -> A -> B) ls : forall z, fold_left f (concat ls) z = fold_left (fun z l => fold_left f l z) ls z.
Proof. induction ls as [|l ls IH]; intros z; [reflexivity|]. cbn [concat fold_left]. rewrite fold_left_app. apply IH. Qed.
Lemma fold_map {A B C : Type} (f : B -> C -> B) (g : A -> C) l : forall z, fold_left f (map g l) z = fold_left (fun z a => f z (g a)) l z.
Proof. induction l as [|a l IH]; intros z; [reflexivity|]. cbn [map fold_left]. apply IH. Qed.
Lemma fold_ext {A B : Type} (f g : B -> A -> B) l : (forall a, In a l -> forall z, f z a = g z a) -> forall z, fold_left f l z = fold_left g l z.
Proof. induction l as [|a l IH]; intros H z; [reflexivity|]. cbn [fold_left]. rewrite (H a (or_introl eq_refl)). apply IH. intros b Hb. apply H. right. exact Hb. Qed.
Lemma seq_combine_snd {A : Type} (l : list A) : forall s, map snd (combine (seq s (length l)) l) = l.
Proof. induction l as [|a l IH]; intros s; [reflexivity|]. cbn [length seq combine map snd]. rewrite IH. reflexivity. Qed.
Lemma combine_maps {A B C : Type} (f : A -> B) (g : A -> C) l : combine (map f l) (map g l) = map (fun a => (f a, g a)) l.
Proof. induction l as [|a l IH]; [reflexivity|]. cbn [map combine]. rewrite IH. reflexivity. Qed.
Lemma mapM_of_map {A B C : Type} (f : B -> res C) (g : A -> B) l : mapM f (map g l) = mapM (fun a => f (g a)) l.
Proof. induction l as [|a l IH]; [reflexivity|]. cbn [map mapM]. rewrite IH. reflexivity. Qed.
Definition others (OW : list (meas * R)) : list (ltens CS) := map (fun q => me_x (fst q)) OW.
Definition ready (OW : list (meas * R)) (a : meas) : Prop := povm_ok (me_x a) (me_n a) hs /\
  forall q, In q OW -> povm_ok (me_x (fst q)) (me_n (fst q)) hs /\ nonzero_elems hs (me_n a) (me_n (fst q)) (me_x a) (me_x (fst q)).
Theorem estimator1_eq OW a c : ready OW a -> (0 <= eps)%R ->
  lfun_estimator1 (me_x a) (others OW) (map snd OW) (coeff_arr a c) eps =
  Ok (concat (map (fun p => map (pair (fst p)) (entsf OW a c (snd p))) (combine (seq 0 (length OW)) OW)), map (acc_w OW a) (outcomes (me_n a))).
Proof.
  intros [Hx HO] He. unfold lfun_estimator1. destruct (povm_dims _ _ _ Hx) as (Dx & _ & _). pose proof (proj1 (povm_pos _ _ _ Hx)) as Pn.
  assert (Nx : nsoutdims (me_x a) = bigd (me_n a)) by (unfold nsoutdims; rewrite Dx; reflexivity). unfold coeff_arr at 1. cbn [fst]. rewrite Nx, list_eqb_refl. cbn [passert].
  unfold others. rewrite map_length, combine_maps, combine_map_id, mapM_of_map. cbn [fst snd]. unfold coeff_arr. cbn [snd].
  set (E := fun p : nat * (meas * R) => map (fun ij => (mkE (fst p) (fst ij) (tst a (fst (snd p)) (snd ij))
     (Fin (c (bigi (me_n a) (unravel (me_n a) (fst ij))) * snd (snd p) * pfe a (fst (snd p)) (unravel (me_n a) (fst ij)) (unravel (msd a (fst (snd p))) (snd ij)))%R), snd (snd p)))
     (filter (mij a (fst (snd p))) (grid (size (me_n a)) (size (msd a (fst (snd p))))))).
  rewrite (mapM_ok' _ E).
  2:{ apply Forall_forall. intros [pos [b w]] Hp. apply in_combine_r in Hp. cbn [fst snd]. destruct (HO _ Hp) as [Hb NZ]. cbn [fst] in Hb, NZ. rewrite (pair_entries a b Hx Hb pos w _ NZ He). f_equal. unfold E. cbn [fst snd].
    apply map_ext_in. intros [i j] Hij. apply filter_In in Hij. destruct Hij as [Hij _]. apply in_grid in Hij. cbn [fst snd]. rewrite outcomes_nth by (rewrite size_bigd by exact Pn; apply Hij). rewrite unravel_bigd by (exact Pn || apply Hij). reflexivity. }
  cbn [bind]. rewrite size_bigd by exact Pn.
  assert (Acc : forall i, i < size (me_n a) -> nth i (accumulate (size (me_n a)) (concat (map E (combine (seq 0 (length OW)) OW)))) 0%Z = acc_w OW a (unravel (me_n a) i)).
  { intros i Hi. rewrite accumulate_nth by exact Hi. rewrite fold_concat, fold_map. unfold acc_w. transitivity (fold_left (fun z q => Nat.iter (nme a (fst q) (unravel (me_n a) i)) (fun z => rtrunc (IZR z + snd q)) z) (map snd (combine (seq 0 (length OW)) OW)) 0%Z); [|rewrite seq_combine_snd; reflexivity]. rewrite fold_map. apply fold_ext. intros [pos [b w]] Hp z. apply in_combine_r in Hp. destruct (HO _ Hp) as [Hb _]. cbn [fst snd] in *.
    unfold E. cbn [fst snd]. rewrite fold_map. rewrite (fold_ext _ (fun z (ij : nat * nat) => if Nat.eqb (fst ij) i then rtrunc (IZR z + w) else z)).
    - rewrite (fold_count (fun ij : nat * nat => Nat.eqb (fst ij) i) (fun z => rtrunc (IZR z + w))). f_equal. apply (nme_count a b). exact Hi.
    - intros [i' j] _ z'. unfold acc_step. cbn [fst snd e_out]. rewrite Nat.eqb_sym. reflexivity. }
  f_equal. f_equal.
  - rewrite concat_map, map_map. f_equal. apply map_ext. intros [pos [b w]]. unfold E, entsf. cbn [fst snd]. rewrite !map_map. apply map_ext_in. intros [i j] Hij. apply filter_In in Hij. destruct Hij as [Hij _]. apply in_grid in Hij. cbn [fst snd e_pos e_num e_out e_fun]. rewrite Acc by apply Hij. reflexivity.
  - apply (nth_ext _ _ 0%Z 0%Z); [rewrite accumulate_length; unfold outcomes; rewrite !map_length, seq_length; reflexivity|]. rewrite accumulate_length. intros i Hi. rewrite Acc by exact Hi. rewrite outcomes_nth by exact Hi. reflexivity.
Qed.

(** ** All members of [self] *)
Definition selfs (X : list (meas * (list nat -> R))) : list (ltens CS) := map (fun t => me_x (fst t)) X.
Definition coeffs (X : list (meas * (list nat -> R))) : list (list nat * list R) := map (fun t => coeff_arr (fst t) (snd t)) X.
Lemma filter_pos_none {A B : Type} (g : A -> list B) l : forall s pos, pos < s -> filter (fun e => Nat.eqb (fst e) pos) (concat (map (fun p => map (pair (fst p)) (g (snd p))) (combine (seq s (length l)) l))) = [].
Proof.
  induction l as [|a l IH]; intros s pos H; [reflexivity|]. cbn [length seq combine map concat fst snd]. rewrite filter_app, IH by lia. rewrite filter_none; [reflexivity|].
  intros e He. apply in_map_iff in He. destruct He as (b & <- & _). cbn [fst]. apply Nat.eqb_neq. lia.
Qed.
Lemma filter_pos {A B : Type} (g : A -> list B) l : forall s pos a, In (pos, a) (combine (seq s (length l)) l) ->
  map snd (filter (fun e => Nat.eqb (fst e) pos) (concat (map (fun p => map (pair (fst p)) (g (snd p))) (combine (seq s (length l)) l)))) = g a.
Proof.
  induction l as [|b l IH]; intros s pos a H; [destruct H|]. cbn [length seq combine map concat fst snd] in H |- *. rewrite filter_app, map_app. destruct H as [E|H].
  - injection E as <- <-. rewrite filter_pos_none by lia. rewrite filter_all; [cbn [map]; rewrite app_nil_r, map_map; apply map_id|].
    intros e He. apply in_map_iff in He. destruct He as (c & <- & _). cbn [fst]. apply Nat.eqb_refl.
  - rewrite IH with (a := a) by exact H. apply in_combine_l, in_seq in H. rewrite filter_none; [reflexivity|].
    intros e He. apply in_map_iff in He. destruct He as (c & <- & _). cbn [fst]. apply Nat.eqb_neq. lia.
Qed.
Theorem estimator_eq X OW : (forall t, In t X -> ready OW (fst t)) -> (0 <= eps)%R ->
  lfun_estimator (selfs X) (others OW) (coeffs X) (map snd OW) eps =
  Ok (map (fun q => flat_map (fun t => entsf OW (fst t) (snd t) q) X) OW, map (fun t => map (acc_w OW (fst t)) (outcomes (me_n (fst t)))) X).
Proof.
  intros HR He. unfold lfun_estimator. unfold others at 1. rewrite !map_length, Nat.eqb_refl. cbn [passert]. unfold coeffs at 1, selfs at 1. rewrite !map_length, Nat.eqb_refl. cbn [passert].
  unfold coeffs, selfs. rewrite combine_maps, mapM_of_map. cbn [fst snd].
  rewrite (mapM_ok' _ (fun t => (concat (map (fun p => map (pair (fst p)) (entsf OW (fst t) (snd t) (snd p))) (combine (seq 0 (length OW)) OW)), map (acc_w OW (fst t)) (outcomes (me_n (fst t)))))).
  2:{ apply Forall_forall. intros t Ht. apply estimator1_eq; [apply HR; exact Ht|exact He]. }
  cbn [bind]. rewrite !map_map. cbn [fst snd]. f_equal. f_equal. unfold others. rewrite map_length.
  transitivity (map (fun p => flat_map (fun t => entsf OW (fst t) (snd t) (snd p)) X) (combine (seq 0 (length OW)) OW)).
  - transitivity (map (fun p => map snd (filter (fun e => Nat.eqb (fst e) (fst p)) (concat (map (fun t => concat (map (fun p => map (pair (fst p)) (entsf OW (fst t) (snd t) (snd p))) (combine (seq 0 (length OW)) OW))) X)))) (combine (seq 0 (length OW)) OW)).
    + rewrite <- (map_map fst (fun pos => map snd (filter (fun e => Nat.eqb (fst e) pos) (concat (map (fun t => concat (map (fun p => map (pair (fst p)) (entsf OW (fst t) (snd t) (snd p))) (combine (seq 0 (length OW)) OW))) X))))).
      f_equal. generalize 0. induction OW as [|q OW' IH]; intros s; [reflexivity|]. cbn [length seq combine map fst]. f_equal. apply IH.
      intros t Ht. destruct (HR t Ht) as [A B]. split; [exact A|]. intros q' Hq'. apply B. right. exact Hq'.
    + apply map_ext_in. intros [pos q] Hp. cbn [fst snd]. rewrite <- concat_filter_map, concat_map, !map_map, flat_map_concat_map. f_equal. apply map_ext. intros t. exact (filter_pos (entsf OW (fst t) (snd t)) OW 0 pos q Hp).
  - rewrite <- (map_map snd (fun q => flat_map (fun t => entsf OW (fst t) (snd t) q) X)). rewrite seq_combine_snd. reflexivity.
Qed.
Lemma outcomes_big ds : Forall (fun d => 0 < d) ds -> outcomes (bigd ds) = map (bigi ds) (outcomes ds).
Proof. intros H. unfold outcomes. rewrite map_map, size_bigd by exact H. apply map_ext_in. intros i Hi. apply in_seq in Hi. apply unravel_bigd; [exact H|lia]. Qed.
(** Is a probability with a coefficient not available? *)
Definition lacking (X : list (meas * (list nat -> R))) (OW : list (meas * R)) : Prop :=
  exists t ks, In t X /\ inr ks (me_n (fst t)) /\ snd t (bigi (me_n (fst t)) ks) <> 0%R /\ acc_w OW (fst t) ks = 0%Z.
Lemma cannot_spec X OW : (forall t, In t X -> ready OW (fst t)) ->
  cannot (map (fun t => map (acc_w OW (fst t)) (outcomes (me_n (fst t)))) X) (coeffs X) = true <-> lacking X OW.
Proof.
  intros HR. unfold cannot, coeffs. rewrite combine_maps, existsb_map. cbn [fst snd]. rewrite existsb_exists. unfold lacking, coeff_arr. cbn [snd].
  assert (G : forall t, In t X -> combine (map (acc_w OW (fst t)) (outcomes (me_n (fst t)))) (map (snd t) (outcomes (bigd (me_n (fst t))))) = map (fun ks => (acc_w OW (fst t) ks, snd t (bigi (me_n (fst t)) ks))) (outcomes (me_n (fst t)))).
  { intros t Ht. rewrite outcomes_big by (exact (proj1 (povm_pos _ _ _ (proj1 (HR t Ht))))). rewrite map_map, combine_maps. reflexivity. }
  split.
  - intros (t & Ht & H). rewrite G, existsb_map in H by exact Ht. apply existsb_exists in H. destruct H as (ks & Hk & H). cbn [fst snd] in H. apply andb_prop in H. destruct H as [H1 H2]. exists t, ks. split; [exact Ht|]. split; [apply outcomes_inr; exact Hk|].
    split; [|apply Z.eqb_eq; exact H2]. destruct (Req_EM_T (snd t (bigi (me_n (fst t)) ks)) 0); [discriminate|assumption].
  - intros (t & ks & Ht & Hk & H1 & H2). exists t. split; [exact Ht|]. rewrite G, existsb_map by exact Ht. apply existsb_exists. exists ks. split; [apply outcomes_inr; exact Hk|]. cbn [fst snd]. rewrite H2, Z.eqb_refl, andb_true_r. destruct (Req_EM_T _ 0); [contradiction|reflexivity].
Qed.
(** Accumulators of matching elements do not vanish. *)
Definition acc_pos (X : list (meas * (list nat -> R))) (OW : list (meas * R)) : Prop :=
  forall t q ks, In t X -> In q OW -> inr ks (me_n (fst t)) -> 0 < nme (fst t) (fst q) ks -> acc_w OW (fst t) ks <> 0%Z.
Lemma nme_pos a b ks ls : inr ls (msd a b) -> mte a b ks ls = true -> 0 < nme a b ks.
Proof.
  intros Hl H. unfold nme. destruct (filter (mte a b ks) (outcomes (msd a b))) as [|h r] eqn:E; [|cbn; lia]. exfalso.
  assert (I : In ls (filter (mte a b ks) (outcomes (msd a b)))) by (apply filter_In; split; [apply outcomes_inr; exact Hl|exact H]). rewrite E in I. destruct I.
Qed.
Lemma ents_fin X OW : acc_pos X OW -> forall t q, In t X -> In q OW -> entsf OW (fst t) (snd t) q = map (fun e => (Fin (fst e), snd e)) (ents OW (fst t) (snd t) q).
Proof.
  intros HA t q Ht Hq. unfold entsf, ents. rewrite map_map. cbn [fst snd]. apply map_ext_in. intros [i j] Hij. apply filter_In in Hij. destruct Hij as [Hij M]. apply in_grid in Hij. cbn [fst snd].
  rewrite fdiv_fin; [reflexivity|]. apply not_0_IZR. apply (HA t q); try assumption; [apply unravel_inr; apply Hij|]. apply (nme_pos _ _ _ (unravel (msd (fst t) (fst q)) j)); [apply unravel_inr; apply Hij|exact M].
Qed.
(** The entries of one member of [other] and the function they describe *)
Definition all_ents (X : list (meas * (list nat -> R))) (OW : list (meas * R)) (q : meas * R) : list (R * ofun) := flat_map (fun t => ents OW (fst t) (snd t) q) X.
Lemma all_fin X OW q : acc_pos X OW -> In q OW -> flat_map (fun t => entsf OW (fst t) (snd t) q) X = map (fun e => (Fin (fst e), snd e)) (all_ents X OW q).
Proof.
  intros HA Hq. unfold all_ents. assert (G : forall Y, (forall t, In t Y -> In t X) -> flat_map (fun t => entsf OW (fst t) (snd t) q) Y = map (fun e => (Fin (fst e), snd e)) (flat_map (fun t => ents OW (fst t) (snd t) q) Y)).
  { induction Y as [|t Y IH]; intros H; [reflexivity|]. cbn [flat_map]. rewrite map_app, IH by (intros; apply H; right; assumption). rewrite (ents_fin X OW HA t q) by (auto; apply H; left; reflexivity). reflexivity. }
  apply G. auto.
Qed.
Lemma reals_fin {A : Type} (l : list (R * A)) : reals (map fst (map (fun e => (Fin (fst e), snd e)) l)) = Some (map fst l).
Proof. induction l as [|e l IH]; [reflexivity|]. cbn [map reals fst]. cbn [map fst] in IH. rewrite IH. reflexivity. Qed.
(** The function estimated by one member of [other], at its outcome [l] *)
Definition est_fun (X : list (meas * (list nat -> R))) (OW : list (meas * R)) (q : meas * R) (l : list nat) : R :=
  rsum (map (fun t => let ns := me_n (fst t) in rmsum ns (fun ks => snd t (bigi ns ks) * snd q / IZR (acc_w OW (fst t) ks) * she (fst t) (fst q) ks l)%R) X).
Lemma ents_val OW a c q l : ready OW a -> In q OW -> inr l (me_n (fst q)) ->
  rsum (map (fun e => fst e * snd e (rowZ (bigi (me_n (fst q)) l)))%R (ents OW a c q)) = rmsum (me_n a) (fun ks => c (bigi (me_n a) ks) * snd q / IZR (acc_w OW a ks) * she a (fst q) ks l)%R.
Proof.
  intros [Hx HO] Hq Hl. destruct (HO q Hq) as [Hb _]. unfold ents. rewrite map_map, rsum_filter, rsum_grid, rmsum_flat. cbn [fst snd].
  assert (L : length (me_n a) = length (me_n (fst q))) by (pose proof Hx as (_ & _ & L1 & _); pose proof Hb as (_ & _ & L2 & _); lia).
  pose proof (proj_inr (me_n a) (me_n (fst q)) l L Hl) as Hp. fold (msd a (fst q)) in Hp.
  unfold rbig. apply (bigsum_ext (K := RS)). intros i Hi. set (ks := unravel (me_n a) i). set (C := (c (bigi (me_n a) ks) * snd q / IZR (acc_w OW a ks))%R).
  transitivity (rmsum (msd a (fst q)) (fun ls => if row_dec ls (proj (me_n a) l) then C * (if mte a (fst q) ks ls then pfe a (fst q) ks ls else 0) else 0)%R).
  - rewrite rmsum_flat. unfold rbig. apply (bigsum_ext (K := RS)). intros j Hj. cbn beta. rewrite (tst_eq a (fst q) Hx Hb j l Hj Hl). unfold mij. cbn [fst snd]. fold ks.
    destruct (row_dec (unravel (msd a (fst q)) j) (proj (me_n a) l)) as [E|N].
    + rewrite <- E, ravel_unravel, Nat.eqb_refl by exact Hj. unfold C. destruct (mte a (fst q) ks (unravel (msd a (fst q)) j)); unfold Rdiv; cbn; ring.
    + destruct (Nat.eqb_spec (ravel (msd a (fst q)) (proj (me_n a) l)) j) as [E|_]; [exfalso; apply N; rewrite <- E; apply unravel_ravel; exact Hp|]. destruct (mte a (fst q) ks (unravel (msd a (fst q)) j)); cbn; ring.
  - rewrite (rmsum_single _ (proj (me_n a) l)); [|exact Hp|intros ls _ N; destruct (row_dec ls (proj (me_n a) l)); [contradiction|reflexivity]]. destruct (row_dec _ _); [reflexivity|congruence].
Qed.
Lemma lin_ents {A : Type} (g : A -> list (R * ofun)) l row : lin (map fst (flat_map g l)) (map snd (flat_map g l)) row = rsum (map (fun t => rsum (map (fun e => fst e * snd e row)%R (g t))) l).
Proof. unfold lin. rewrite combine_maps, map_map. cbn [fst snd]. apply rsum_flat. Qed.
Lemma est_fun_eq X OW q l : (forall t, In t X -> ready OW (fst t)) -> In q OW -> inr l (me_n (fst q)) ->
  lin (map fst (all_ents X OW q)) (map snd (all_ents X OW q)) (rowZ (bigi (me_n (fst q)) l)) = est_fun X OW q l.
Proof. intros HR Hq Hl. unfold all_ents. rewrite lin_ents. unfold est_fun. f_equal. apply map_ext_in. intros t Ht. cbv zeta. apply ents_val; auto. Qed.
End Tol.
