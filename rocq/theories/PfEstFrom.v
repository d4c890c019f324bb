(** [MPPovm.est_pmf_from] (mppovm.py 1091-1157). *)
From Coq Require Import Reals Lra.
From Verif Require Export PfMean PfElemSum.
Open Scope nat_scope.
Add Ring Cr : (k_ring CS).

(** ** A multiple of the identity *)
Lemma ident_pos hs : Forall (fun d => 0 < d) hs -> (0 < hsn2 hs ident)%R.
Proof.
  intros P. destruct (Rle_lt_or_eq_dec _ _ (hsn2_nonneg hs ident)) as [H|H]; [exact H|]. exfalso.
  assert (Z : inr (map (fun _ => 0) hs) hs) by (clear H; induction P; cbn [map]; [constructor|apply inr_cons; assumption]).
  pose proof (hsn2_zero hs ident (eq_sym H) _ _ Z Z) as E. unfold ident in E. destruct (list_eq_dec Nat.eq_dec _ _) as [_|N]; [exact (cs_one_zero E)|congruence].
Qed.
Lemma elemsum_fraction hs S f miss eps : Forall (fun d => 0 < d) hs -> (0 <= eps)%R -> (0 < f)%R ->
  (forall is js, inr is hs -> inr js hs -> S is js = (toC f * ident is js)%K) -> (if miss : bool then f < 1 + eps else Rabs (f - 1) <= eps)%R ->
  elemsum_val hs S miss eps = Ok (Some f).
Proof.
  intros Ph He Hf HS Hm. pose proof (ident_pos hs Ph) as Pi.
  assert (E1 : hsn2 hs S = (f * f * hsn2 hs ident)%R) by (rewrite <- hsn2_scale; apply hsn2_ext; exact HS).
  assert (E2 : hsin hs S ident = toC (f * hsn2 hs ident)).
  { rewrite <- (hsin_conj hs ident S). transitivity (kconj (hsin hs ident (fun is js => toC f * ident is js + k0 * ident is js)%K)).
    - f_equal. apply hsin_ext; [reflexivity|]. intros is js Hi Hj. rewrite HS by assumption. ring.
    - rewrite hsin_lin, hsn2_toC. rewrite toC_mul, kconj_add, !kconj_mul, !toC_conj, kconj_0. ring. }
  assert (Q : sqrt (hsn2 hs S) = (f * sqrt (hsn2 hs ident))%R).
  { rewrite E1, sqrt_mult_alt by nra. fold (Rsqr f). rewrite sqrt_Rsqr by lra. reflexivity. }
  assert (Pe : (0 < sqrt (hsn2 hs ident))%R) by (apply sqrt_lt_R0; exact Pi). pose proof (sqrt_sqrt (hsn2 hs ident) ltac:(lra)) as Qe.
  assert (Qi : sqrt (cabs2 (hsin hs S ident)) = (f * hsn2 hs ident)%R).
  { rewrite E2. transitivity (sqrt (Rsqr (f * hsn2 hs ident))); [f_equal; unfold cabs2, Rsqr; cbn; ring|]. apply sqrt_Rsqr. nra. }
  unfold elemsum_val. cbv zeta. rewrite Q, Qi. replace (f * sqrt (hsn2 hs ident) * sqrt (hsn2 hs ident) - f * hsn2 hs ident)%R with 0%R by (rewrite Rmult_assoc, Qe; ring).
  unfold Rdiv at 1 2. rewrite Rmult_0_l. rewrite Rltb_true by nra. rewrite Rleb_true by lra. cbn [andb passert].
  destruct (Rltb_spec eps 0); [lra|]. replace (f * sqrt (hsn2 hs ident) / sqrt (hsn2 hs ident))%R with f by (field; lra).
  destruct miss; [rewrite Rltb_true by exact Hm|rewrite Rleb_true by exact Hm]; reflexivity.
Qed.

(** ** Columns of the samples *)
Lemma sup_lookup {A : Type} (d : A) fs : forall pre vs, length vs = length fs -> map (fun k => nth k (pre ++ vs) d) (sup (length pre) fs) = bigv fs vs.
Proof.
  induction fs as [|n fs IH]; intros pre [|v vs] L; try discriminate; [reflexivity|]. rewrite bigv_cons. cbn [sup]. replace (pre ++ v :: vs) with ((pre ++ [v]) ++ vs) by (rewrite <- app_assoc; reflexivity).
  specialize (IH (pre ++ [v]) vs ltac:(auto)). rewrite app_length, Nat.add_1_r in IH. destruct (1 <? n); [|exact IH]. cbn [map]. f_equal; [|exact IH]. rewrite <- app_assoc, app_nth2, Nat.sub_diag by lia. reflexivity.
Qed.
Lemma sup_eq_long ns : forall a m, length ns <= m -> map fst (filter (fun p => Nat.ltb 1 (snd p)) (combine (seq a m) ns)) = sup a ns.
Proof. induction ns as [|n ns IH]; intros a [|m] L; cbn [length] in L; try lia; try reflexivity. cbn [seq combine filter sup snd]. destruct (1 <? n); cbn [map fst]; rewrite IH by lia; reflexivity. Qed.
(** Outcomes at the sites where the other POVM has one outcome are forgotten. *)
Definition proj (ns ls : list nat) : list nat := zip2 (fun n l => if Nat.ltb 1 n then l else 0) ns ls.
Lemma proj_inr ns : forall os ls, length ns = length os -> inr ls os -> inr (proj ns ls) (merge_dims ns os).
Proof.
  induction ns as [|n ns IH]; intros [|o os] ls L H; try discriminate; [inversion H; constructor|]. apply inr_cons_inv in H. destruct H as (l & ls' & -> & Hl & Hls). cbn [proj merge_dims zip2].
  apply inr_cons; [destruct (1 <? n); lia|apply IH; auto].
Qed.
(** The numbers of outcomes of the first POVM at the columns of the samples *)
Definition colsn (ns os : list nat) : list nat := map fst (filter (fun p => Nat.ltb 1 (snd p)) (combine ns os)).
Lemma colsn_len ns : forall os, length ns = length os -> length (colsn ns os) = length (bigd os).
Proof.
  induction ns as [|n ns IH]; intros [|o os] L; try discriminate; [reflexivity|]. unfold colsn, bigd in *. cbn [combine filter snd]. destruct (1 <? o); cbn [map length]; rewrite IH by auto; reflexivity.
Qed.
Lemma bigi_len os : forall ls, length ls = length os -> length (bigi os ls) = length (bigd os).
Proof. induction os as [|o os IH]; intros [|l ls] L; try discriminate; [reflexivity|]. unfold bigi, bigd in *. cbn [combine filter fst]. destruct (1 <? o); cbn [map length]; rewrite IH by auto; reflexivity. Qed.
Lemma bigv_cols ns : forall os ls, length ns = length os -> length ls = length os -> bigv (colsn ns os) (bigi os ls) = bigi (merge_dims ns os) (proj ns ls).
Proof.
  induction ns as [|n ns IH]; intros [|o os] [|l ls] L1 L2; try discriminate; [reflexivity|]. specialize (IH os ls ltac:(auto) ltac:(auto)). unfold colsn, bigi in *. cbn [combine filter fst snd merge_dims zip2 proj].
  destruct (1 <? o) eqn:Eo; cbn [map fst snd].
  - rewrite bigv_cons. destruct (1 <? n) eqn:En; [rewrite Eo; cbn [map snd]; f_equal; exact IH|exact IH].
  - destruct (1 <? n) eqn:En; [rewrite Eo|]; exact IH.
Qed.
Lemma filter_cols ns : forall os, length ns = length os -> filter (fun d => Nat.ltb 1 d) (bigv (colsn ns os) (bigd os)) = bigd (merge_dims ns os).
Proof.
  induction ns as [|n ns IH]; intros [|o os] L; try discriminate; [reflexivity|]. specialize (IH os ltac:(auto)). unfold colsn, bigd in *. cbn [combine filter fst snd merge_dims zip2].
  destruct (1 <? o) eqn:Eo; cbn [map fst snd].
  - rewrite bigv_cons. destruct (1 <? n) eqn:En; [cbn [filter]; rewrite Eo; f_equal; exact IH|exact IH].
  - destruct (1 <? n) eqn:En; [rewrite Eo|]; exact IH.
Qed.
Lemma bigv_map {A B : Type} (h : A -> B) ns : forall vs, bigv ns (map h vs) = map h (bigv ns vs).
Proof. induction ns as [|n ns IH]; intros [|v vs]; try reflexivity. cbn [map]. rewrite !bigv_cons, IH. destruct (1 <? n); reflexivity. Qed.
Lemma unravel_bigd ds j : Forall (fun d => 0 < d) ds -> j < size ds -> unravel (bigd ds) j = bigi ds (unravel ds j).
Proof.
  intros P H. rewrite <- (ravel_unravel ds j H) at 1. pose proof (unravel_inr ds j H) as U. rewrite <- (ravel_bigi ds _ P U). apply unravel_ravel. apply bigi_inr. exact U.
Qed.
Lemma bigi_inj ds a b : Forall (fun d => 0 < d) ds -> inr a ds -> inr b ds -> bigi ds a = bigi ds b -> a = b.
Proof.
  intros P Ha Hb E. rewrite <- (unravel_ravel ds a Ha), <- (unravel_ravel ds b Hb). rewrite <- (ravel_bigi ds a P Ha), <- (ravel_bigi ds b P Hb), E. reflexivity.
Qed.
(** ** The numbers computed *)
(** The number of the kept part of an outcome *)
Definition part (ns os ls : list nat) : nat := ravel (merge_dims ns os) (proj ns ls).
Lemma part_lt ns os ls : length ns = length os -> inr ls os -> part ns os ls < size (merge_dims ns os).
Proof. intros L H. apply ravel_lt. apply proj_inr; assumption. Qed.
Lemma columns_eq (x o : ltens CS) ns os ls : outdims x = ns -> outdims o = os -> length ns = length os -> llen o = length os -> length ls = length os ->
  columns (other_support x o) (rowZ (bigi os ls)) = rowZ (bigi (merge_dims ns os) (proj ns ls)).
Proof.
  intros Ex Eo L Lo Ll. unfold columns, other_support. rewrite Ex, Eo, Lo. fold (colsn ns os). rewrite sup_eq_long.
  2:{ rewrite colsn_len by exact L. unfold bigd. clear. induction os as [|o os IH]; cbn [filter length]; [lia|]. destruct (1 <? o); cbn [length]; lia. }
  change (sup 0 (colsn ns os)) with (sup (length (@nil Z)) (colsn ns os)). change (fun k : nat => nth k (rowZ (bigi os ls)) 0%Z) with (fun k : nat => nth k ([] ++ rowZ (bigi os ls)) 0%Z).
  rewrite sup_lookup by (unfold rowZ; rewrite map_length, bigi_len, colsn_len by assumption; reflexivity).
  unfold rowZ. rewrite bigv_map, bigv_cols by assumption. reflexivity.
Qed.
Lemma support_dims (x o : ltens CS) ns os : outdims x = ns -> outdims o = os -> length ns = length os -> llen o = length os ->
  filter (fun d => Nat.ltb 1 d) (map (fun k => nth k (bigd os) 0) (other_support x o)) = bigd (merge_dims ns os).
Proof.
  intros Ex Eo L Lo. unfold other_support. rewrite Ex, Eo, Lo. fold (colsn ns os). rewrite sup_eq_long.
  2:{ rewrite colsn_len by exact L. unfold bigd. clear. induction os as [|o os IH]; cbn [filter length]; [lia|]. destruct (1 <? o); cbn [length]; lia. }
  change (sup 0 (colsn ns os)) with (sup (length (@nil nat)) (colsn ns os)). change (fun k : nat => nth k (bigd os) 0) with (fun k : nat => nth k ([] ++ bigd os) 0).
  rewrite sup_lookup by (rewrite colsn_len by assumption; reflexivity). apply filter_cols. exact L.
Qed.
Lemma row_is_part ns os ls j : Forall (fun d => 0 < d) os -> length ns = length os -> inr ls os -> j < size (merge_dims ns os) ->
  row_is (bigd (merge_dims ns os)) j (rowZ (bigi (merge_dims ns os) (proj ns ls))) = Nat.eqb (part ns os ls) j.
Proof.
  intros P L H Hj. pose proof (merge_dims_pos ns os P) as Pm. pose proof (proj_inr ns os ls L H) as Hp. pose proof (unravel_inr _ _ Hj) as U.
  unfold row_is, zrow. rewrite unravel_bigd by assumption. unfold part.
  destruct (list_eq_dec Z.eq_dec _ _) as [E|N]; symmetry.
  - apply Nat.eqb_eq. apply rowZ_inj in E. apply bigi_inj in E; [|assumption..]. rewrite E. apply ravel_unravel. exact Hj.
  - apply Nat.eqb_neq. intros E. apply N. rewrite <- E. rewrite unravel_ravel by exact Hp. reflexivity.
Qed.
Lemma rowidx_ok ds js : inr js ds -> rowidx ds (rowZ js) = Ok (ravel ds js).
Proof.
  intros H. unfold rowidx. rewrite (mapM_ok' _ (fun p => Z.to_nat (snd p))).
  - cbn [bind]. do 2 f_equal. unfold rowZ. clear -H. induction H as [|j d js ds Hj H IH]; [reflexivity|]. cbn [map combine snd]. rewrite Nat2Z.id, IH. reflexivity.
  - unfold rowZ. clear -H. induction H as [|j d js ds Hj H IH]; [constructor|]. cbn [map combine]. constructor; [|exact IH]. cbn [fst snd]. unfold pyidx.
    destruct (0 <=? Z.of_nat j)%Z eqn:E; [|lia]. destruct (Z.of_nat j <? Z.of_nat d)%Z eqn:E2; [reflexivity|lia].
Qed.
(** Filtering a table *)
Lemma filter_all {A : Type} (P : A -> bool) l : (forall a, In a l -> P a = true) -> filter P l = l.
Proof. induction l as [|a l IH]; intros H; [reflexivity|]. cbn [filter]. rewrite (H a (or_introl eq_refl)), IH; [reflexivity|]. intros b Hb. apply H. right. exact Hb. Qed.
Lemma filter_none {A : Type} (P : A -> bool) l : (forall a, In a l -> P a = false) -> filter P l = [].
Proof. induction l as [|a l IH]; intros H; [reflexivity|]. cbn [filter]. rewrite (H a (or_introl eq_refl)). apply IH. intros b Hb. apply H. right. exact Hb. Qed.
Lemma filter_comm {A : Type} (P Q : A -> bool) l : filter P (filter Q l) = filter Q (filter P l).
Proof. induction l as [|a l IH]; [reflexivity|]. cbn [filter]. destruct (P a) eqn:EP, (Q a) eqn:EQ; cbn [filter]; rewrite ?EP, ?EQ, IH; reflexivity. Qed.
Lemma filter_row {A : Type} (key : A -> nat) n m (g : nat -> nat -> A) i : (forall a b, key (g a b) = a) -> i < n ->
  filter (fun q => Nat.eqb (key q) i) (flat_map (fun a => map (g a) (seq 0 m)) (seq 0 n)) = map (g i) (seq 0 m).
Proof.
  intros K Hi. assert (G : forall s n, filter (fun q => Nat.eqb (key q) i) (flat_map (fun a => map (g a) (seq 0 m)) (seq s n)) = if (s <=? i) && (i <? s + n) then map (g i) (seq 0 m) else []).
  { clear n Hi. intros s n. revert s. induction n as [|n IH]; intros s.
    - cbn [seq flat_map filter]. destruct (s <=? i) eqn:E1, (i <? s + 0) eqn:E2; try reflexivity. apply Nat.leb_le in E1. apply Nat.ltb_lt in E2. lia.
    - cbn [seq flat_map]. rewrite filter_app, IH. destruct (Nat.eq_dec s i) as [->|N].
      + rewrite filter_all. 2:{ intros a Ha. apply in_map_iff in Ha. destruct Ha as (b & <- & _). rewrite K. apply Nat.eqb_refl. }
        replace (S i <=? i) with false by (symmetry; apply Nat.leb_gt; lia). replace (i <=? i) with true by (symmetry; apply Nat.leb_le; lia).
        replace (i <? i + S n) with true by (symmetry; apply Nat.ltb_lt; lia). cbn [andb]. apply app_nil_r.
      + rewrite filter_none. 2:{ intros a Ha. apply in_map_iff in Ha. destruct Ha as (b & <- & _). rewrite K. apply Nat.eqb_neq. exact N. }
        cbn [app]. replace (S s <=? i) with (s <=? i). 2:{ destruct (s <=? i) eqn:E1, (S s <=? i) eqn:E2; try reflexivity; [apply Nat.leb_le in E1; apply Nat.leb_gt in E2; lia|apply Nat.leb_gt in E1; apply Nat.leb_le in E2; lia]. }
        replace (S s + n) with (s + S n) by lia. reflexivity. }
  rewrite G. replace (0 <=? i) with true by (symmetry; apply Nat.leb_le; lia). replace (i <? 0 + n) with true by (symmetry; apply Nat.ltb_lt; lia). reflexivity.
Qed.
Lemma fsum_cond {A : Type} (P : A -> bool) (F : A -> flt) (v : A -> R) l : (forall a, In a l -> P a = true -> F a = Fin (v a)) ->
  fsum (map F (filter P l)) = Fin (rsum (map (fun a => if P a then v a else 0%R) l)).
Proof.
  intros H. transitivity (fsum (map Fin (map v (filter P l)))).
  - f_equal. rewrite map_map. apply map_ext_in. intros a Ha. apply filter_In in Ha. apply H; tauto.
  - rewrite fsum_fin. f_equal. clear H F. induction l as [|a l IH]; [reflexivity|]. cbn [filter map]. rewrite rsum_cons. destruct (P a); cbn [map]; rewrite ?rsum_cons, IH; lra.
Qed.
Lemma argwhere_row hs ns os (x o : ltens CS) eps i : Forall (fun d => 0 < d) ns -> Forall (fun d => 0 < d) os -> i < size ns ->
  let m := match_tab hs ns os x o eps in
  filter (fun q => Nat.eqb (fst (fst q)) i) (argwhere m) =
  filter (fun q => matched m (fst (fst q)) (snd (fst q))) (map (fun j => (i, j, nth (i * size (m_o m) + j) (m_pref m) NaN)) (seq 0 (size (m_o m)))).
Proof.
  intros Pn Po Hi m. unfold argwhere. rewrite filter_comm. unfold matched. f_equal.
  apply (filter_row (fun q : nat * nat * flt => fst (fst q))); [reflexivity|]. unfold m, match_tab. cbn [m_s]. rewrite size_bigd by exact Pn. exact Hi.
Qed.
(** ** The estimate, in terms of elements and outcomes *)
Section Val.
Variables (hs ns os : list nat) (x o : ltens CS).
Let ms := merge_dims ns os.
(** Does an element of the first POVM match a (summed) element of the second one; with which factor *)
Definition mt (ks ls : list nat) : bool := Rleb (Rabs (overlap hs (elem_of x ks) (summed_elem ns os o ls) - 1)) (1 / 10 ^ 10).
Definition pfac (ks ls : list nat) : R := sqrt (hsn2 hs (elem_of x ks) / hsn2 hs (summed_elem ns os o ls)).
(** How many samples have the kept outcomes [ls] *)
Definition nproj (lss : list (list nat)) (ls : list nat) : nat := count_occ row_dec (map (proj ns) lss) ls.
Definition est_val (lss : list (list nat)) (ks : list nat) : R :=
  rmsum ms (fun ls => if mt ks ls then pfac ks ls * (INR (nproj lss ls) / INR (length lss)) else 0)%R.
Definition outcomes (ds : list nat) : list (list nat) := map (unravel ds) (seq 0 (size ds)).
Definition is_given (ks : list nat) : bool := existsb (mt ks) (outcomes ms).
Definition n_used (lss : list (list nat)) : nat :=
  match bigd ms with [] => 1 | _ => length (filter (fun ls => existsb (fun ks => mt ks (proj ns ls)) (outcomes ns)) lss) end.
Definition est_array (lss : list (list nat)) : list flt := map (fun ks => if is_given ks then Fin (est_val lss ks) else NaN) (outcomes ns).
End Val.
Lemma outcomes_inr ds ks : In ks (outcomes ds) <-> inr ks ds.
Proof.
  unfold outcomes. rewrite in_map_iff. split.
  - intros (i & <- & Hi). apply in_seq in Hi. apply unravel_inr. lia.
  - intros H. exists (ravel ds ks). split; [apply unravel_ravel; exact H|]. apply in_seq. pose proof (ravel_lt _ _ H). lia.
Qed.
Lemma existsb_ext_in {A : Type} (f g : A -> bool) l : (forall a, In a l -> f a = g a) -> existsb f l = existsb g l.
Proof. induction l as [|a l IH]; intros H; [reflexivity|]. cbn [existsb]. rewrite (H a (or_introl eq_refl)), IH; [reflexivity|]. intros b Hb. apply H. right. exact Hb. Qed.
Lemma existsb_map {A B : Type} (f : A -> B) (p : B -> bool) l : existsb p (map f l) = existsb (fun a => p (f a)) l.
Proof. induction l as [|a l IH]; [reflexivity|]. cbn [map existsb]. rewrite IH. reflexivity. Qed.
Lemma count_true_filter {A : Type} (p : A -> bool) l : count_true (map p l) = length (filter p l).
Proof. unfold count_true. induction l as [|a l IH]; [reflexivity|]. cbn [map filter]. destruct (p a); cbn [length]; rewrite IH; reflexivity. Qed.
Lemma matched_tab hs ns os (x o : ltens CS) i j : Forall (fun d => 0 < d) os -> i < size ns -> j < size (merge_dims ns os) ->
  matched (match_tab hs ns os x o (1 / 10 ^ 10)) i j = mt hs ns os x o (unravel ns i) (unravel (merge_dims ns os) j).
Proof.
  intros Po Hi Hj. unfold matched, match_tab, mt. cbn [m_o m_match]. rewrite size_bigd by (apply merge_dims_pos; exact Po). rewrite table_nth by assumption. reflexivity.
Qed.
Lemma pref_tab hs ns os (x o : ltens CS) i j : i < size ns -> j < size (merge_dims ns os) ->
  nth (i * size (merge_dims ns os) + j) (m_pref (match_tab hs ns os x o (1 / 10 ^ 10))) NaN =
  if mt hs ns os x o (unravel ns i) (unravel (merge_dims ns os) j) then Fin (pfac hs ns os x o (unravel ns i) (unravel (merge_dims ns os) j)) else NaN.
Proof. intros Hi Hj. unfold match_tab, mt, pfac. cbn [m_pref]. rewrite table_nth by assumption. reflexivity. Qed.
Lemma nproj_count ns os lss j : length ns = length os -> Forall (fun ls => inr ls os) lss -> j < size (merge_dims ns os) ->
  count_true (map (fun ls => Nat.eqb (part ns os ls) j) lss) = nproj ns lss (unravel (merge_dims ns os) j).
Proof.
  intros L H Hj. rewrite count_true_filter. unfold nproj. induction H as [|ls lss Hl H IH]; [reflexivity|]. cbn [map filter count_occ].
  pose proof (proj_inr ns os ls L Hl) as Hp. unfold part. destruct (row_dec (proj ns ls) (unravel (merge_dims ns os) j)) as [E|N].
  - rewrite E, ravel_unravel, Nat.eqb_refl by exact Hj. cbn [length]. f_equal. exact IH.
  - replace (Nat.eqb (ravel (merge_dims ns os) (proj ns ls)) j) with false; [exact IH|]. symmetry. apply Nat.eqb_neq. intros E. apply N. rewrite <- E. symmetry. apply unravel_ravel. exact Hp.
Qed.
Section QR.
Variable qr : nd CS -> res (nd CS * nd CS).
Theorem est_pmf_from_eq (x o : ltens CS) ns os hs lss eps : povm_ok x ns hs -> povm_ok o os hs -> nonzero_elems hs ns os x o -> bigd ns <> [] ->
  Forall (fun ls => inr ls os) lss -> lss <> [] ->
  est_pmf_from qr x o (S2n (bigd os) (map (bigi os) lss)) eps =
  let given := map (is_given hs ns os x o) (outcomes ns) in
  if negb (existsb (fun b => b) given) then Ok (map (fun _ => NaN) (outcomes ns), 0) else
  do f <- elemsum_identity qr x (nsoutpos x) (nsoutdims x, given) eps;
  match f with
  | None => Err AssertionError
  | Some f => passert (Rleb (Rabs (rmsum ns (est_val hs ns os x o lss) - f)) eps) (Ok (est_array hs ns os x o lss, n_used hs ns os x o lss))
  end.
Proof.
  intros Hx Ho NZ Hb Hr Hl. pose proof (povm_dims _ _ _ Hx) as (Dx & _ & Lx). pose proof (povm_dims _ _ _ Ho) as (Do & _ & Lo).
  pose proof (povm_pos _ _ _ Hx) as (Pn & Ph). pose proof (povm_pos _ _ _ Ho) as (Po & _).
  assert (L : length ns = length os) by (destruct Hx as (_ & _ & L1 & _), Ho as (_ & _ & L2 & _); lia). set (ms := merge_dims ns os). pose proof (merge_dims_pos ns os Po) as Pm. fold ms in Pm.
  assert (Nx : nsoutdims x = bigd ns) by (unfold nsoutdims; rewrite Dx; reflexivity). assert (No : nsoutdims o = bigd os) by (unfold nsoutdims; rewrite Do; reflexivity).
  unfold est_pmf_from, S2n. replace (Nat.eqb (llen x) (llen o)) with true by (symmetry; apply Nat.eqb_eq; lia). cbn [passert]. rewrite No, Nat.eqb_refl. cbn [passert].
  rewrite (match_elems_spec x o ns os hs [] (1 / 10 ^ 10)) by (first [assumption|intros []; fail|apply Rlt_le, Rdiv_lt_0_compat; [lra|apply pow_lt; lra]]).
  cbv zeta. set (m := match_tab hs ns os x o (1 / 10 ^ 10)). replace (dup_ok m []) with true by reflexivity. cbn [bind].
  rewrite (support_dims x o ns os) by (try assumption; lia). fold ms. rewrite Nx.
  assert (Ms : m_s m = bigd ns) by reflexivity. assert (Mo : m_o m = bigd ms) by reflexivity. rewrite Ms, Mo.
  rewrite list_eqb_refl. cbn [passert].
  assert (Eg : given_of m = map (is_given hs ns os x o) (outcomes ns)).
  { unfold given_of, outcomes. rewrite Ms, Mo, map_map, !size_bigd by assumption. apply map_ext_in. intros i Hi. apply in_seq in Hi. unfold is_given, outcomes. rewrite existsb_map. apply existsb_ext_in.
    intros j Hj. apply in_seq in Hj. rewrite <- matched_tab by (first [assumption|unfold ms in *; lia]). unfold matched. fold m. rewrite Mo, size_bigd by assumption. reflexivity. }
  rewrite Eg. set (given := map (is_given hs ns os x o) (outcomes ns)).
  destruct (existsb (fun b => b) given) eqn:Ex; cbn [negb]. 2:{ unfold given. rewrite map_map. reflexivity. }
  destruct (elemsum_identity qr x (nsoutpos x) (bigd ns, given) eps) as [[f|]|e]; cbn [bind]; try reflexivity.
  assert (Q : praise_unless match bigd ns with [] => false | _ :: _ => true end TypeError = fun r : res (list flt * nat) => r).
  { destruct (bigd ns); [congruence|reflexivity]. } rewrite Q. clear Q.
  assert (Rs : map (columns (other_support x o)) (map rowZ (map (bigi os) lss)) = map (fun ls => rowZ (bigi ms (proj ns ls))) lss).
  { rewrite !map_map. apply map_ext_in. intros ls Hls. rewrite Forall_forall in Hr. pose proof (inr_length _ _ (Hr _ Hls)). apply columns_eq; try assumption; lia. }
  rewrite Rs. rewrite !size_bigd by assumption. rewrite !map_length.
  assert (Lp : INR (length lss) <> 0%R) by (apply not_0_INR; destruct lss; [congruence|discriminate]).
  assert (Ee : map (fun i => fsum (map (fun q => fdiv (fmul (snd q) (Fin (INR (count_true (map (row_is (bigd ms) (snd (fst q))) (map (fun ls => rowZ (bigi ms (proj ns ls))) lss)))))) (Fin (INR (length lss))))
     (filter (fun q => Nat.eqb (fst (fst q)) i) (argwhere m)))) (seq 0 (size ns)) = map Fin (map (est_val hs ns os x o lss) (outcomes ns))).
  { unfold outcomes. rewrite !map_map. apply map_ext_in. intros i Hi. apply in_seq in Hi. unfold m at 1. rewrite argwhere_row by (try assumption; lia). fold m. rewrite Mo, size_bigd by exact Pm.
    rewrite (fsum_cond _ _ (fun q => match snd q with Fin p => (p * (INR (nproj ns lss (unravel ms (snd (fst q)))) / INR (length lss)))%R | _ => 0%R end)).
    - rewrite map_map. cbn [fst snd]. f_equal. unfold est_val. rewrite rmsum_flat, rbig_rsum. f_equal. apply map_ext_in. intros j Hj. apply in_seq in Hj. fold ms in Hj |- *.
      pose proof (matched_tab hs ns os x o i j Po ltac:(lia) ltac:(unfold ms in *; lia)) as Em. pose proof (pref_tab hs ns os x o i j ltac:(lia) ltac:(unfold ms in *; lia)) as Ep. fold ms m in Em, Ep. rewrite Em, Ep. destruct (mt hs ns os x o (unravel ns i) (unravel ms j)); reflexivity.
    - intros q Hq Hm. apply in_map_iff in Hq. destruct Hq as (j & <- & Hj). apply in_seq in Hj. cbn [fst snd] in *. unfold m in Hm |- *. rewrite matched_tab in Hm by (first [assumption|unfold ms in *; lia]).
      pose proof (pref_tab hs ns os x o i j ltac:(lia) ltac:(unfold ms in *; lia)) as Ep. fold ms in Ep, Hm. rewrite Ep, Hm. cbn [fmul].
      rewrite fdiv_fin by exact Lp. f_equal. rewrite map_map.
      replace (count_true (map (fun ls => row_is (bigd ms) j (rowZ (bigi ms (proj ns ls)))) lss)) with (nproj ns lss (unravel ms j)); [unfold Rdiv; ring|].
      unfold ms. rewrite <- nproj_count by (first [assumption|unfold ms in *; lia]). f_equal. apply map_ext_in. intros ls Hls. symmetry. apply row_is_part; try assumption; [|fold ms; lia]. rewrite Forall_forall in Hr. apply Hr. exact Hls. }
  assert (Eu : match bigd ms with
      | [] => Ok (if true then 1 else 0)
      | _ :: _ => do ks <- mapM (rowidx (bigd ms)) (map (fun ls => rowZ (bigi ms (proj ns ls))) lss);
          Ok (count_true (map (fun k => existsb (fun i => nth (i * size ms + k) (m_match m) false) (seq 0 (size ns))) ks)) end = Ok (n_used hs ns os x o lss)).
  { unfold n_used. fold ms. destruct (bigd ms) as [|b bs] eqn:Eb; [reflexivity|]. rewrite <- Eb.
    rewrite (mapM_ok' _ (fun row => ravel (bigd ms) (map Z.to_nat row))).
    - cbn [bind]. rewrite !map_map, count_true_filter. do 2 f_equal. apply filter_ext_in. intros ls Hls. rewrite Forall_forall in Hr. pose proof (proj_inr ns os ls L (Hr _ Hls)) as Hp. fold ms in Hp.
      rewrite rowZ_to, ravel_bigi by assumption. unfold outcomes. rewrite existsb_map. apply existsb_ext_in. intros i Hi. apply in_seq in Hi.
      pose proof (ravel_lt _ _ Hp) as Hlt. pose proof (matched_tab hs ns os x o i (ravel ms (proj ns ls)) Po ltac:(lia) Hlt) as E. fold ms m in E. rewrite unravel_ravel in E by exact Hp.
      unfold matched in E. rewrite Mo, <- Eb in E. rewrite size_bigd in E by exact Pm. exact E.
    - apply Forall_forall. intros row Hrow. apply in_map_iff in Hrow. destruct Hrow as (ls & <- & Hls). rewrite Forall_forall in Hr. rewrite rowZ_to. apply rowidx_ok. apply bigi_inr. apply proj_inr; [exact L|apply Hr; exact Hls]. }
  rewrite Ee. cbn [negb] in Eu. rewrite Eu. cbn [bind]. rewrite fsum_fin.
  replace (rsum (map (est_val hs ns os x o lss) (outcomes ns))) with (rmsum ns (est_val hs ns os x o lss)) by (rewrite rmsum_flat, rbig_rsum; unfold outcomes; rewrite map_map; reflexivity).
  destruct (Rleb _ eps); cbn [passert]; [|reflexivity]. do 2 f_equal. unfold est_array, given. rewrite map_map, combine_map2, map_map. reflexivity.
Qed.
End QR.
