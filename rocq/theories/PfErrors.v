(** Arguments that the operations on MPArrays reject, and the errors they raise. *)
From Verif Require Import CanonSpec Chain PfSum PfAdd PfDot PfDots PfNamed PfEstim MpStruct MpArray PfMpdo.
From Coq Require Import Permutation Lia.
Open Scope nat_scope.

(** ** Python indices *)
Definition in_range (n : nat) (z : Z) : Prop := (- Z.of_nat n <= z < Z.of_nat n)%Z.
Definition pos_of (n : nat) (z : Z) : nat := Z.to_nat (if (z <? 0)%Z then z + Z.of_nat n else z).
Lemma pyidx_ok n z : in_range n z -> pyidx n z = Some (pos_of n z).
Proof.
  unfold in_range, pyidx, pos_of. intros H. destruct (Z.leb_spec 0 z), (Z.ltb_spec z 0); try lia.
  - destruct (Z.ltb_spec z (Z.of_nat n)); [reflexivity|lia].
  - destruct (Z.leb_spec 0 (z + Z.of_nat n)); [reflexivity|lia].
Qed.
Lemma pyidx_bad n z : ~ in_range n z -> pyidx n z = None.
Proof.
  unfold in_range, pyidx. intros H. destruct (Z.leb_spec 0 z).
  - destruct (Z.ltb_spec z (Z.of_nat n)); [lia|reflexivity].
  - destruct (Z.leb_spec 0 (z + Z.of_nat n)); [lia|reflexivity].
Qed.
Lemma in_range_dec n z : {in_range n z} + {~ in_range n z}.
Proof. unfold in_range. destruct (Z_le_dec (- Z.of_nat n) z), (Z_lt_dec z (Z.of_nat n)); [left; lia|right; lia|right; lia|right; lia]. Qed.
Lemma Forall_dec_in n zs : Forall (in_range n) zs \/ ~ Forall (in_range n) zs.
Proof. destruct (Forall_dec (in_range n) (in_range_dec n) zs); auto. Qed.
Lemma mapM_idx n e zs : Forall (in_range n) zs -> mapM (fun z => match norm_axis n z with Some k => Ok k | None => Err e end) zs = Ok (map (pos_of n) zs).
Proof. induction 1 as [|z zs Hz _ IH]; [reflexivity|]. cbn [mapM map]. unfold norm_axis at 1. rewrite (pyidx_ok n z Hz). cbn [bind]. rewrite IH. reflexivity. Qed.
Lemma mapM_idx_err n e zs : ~ Forall (in_range n) zs -> mapM (fun z => match norm_axis n z with Some k => Ok k | None => Err e end) zs = Err e.
Proof.
  induction zs as [|z zs IH]; intros H; [exfalso; apply H; constructor|]. cbn [mapM]. unfold norm_axis at 1. destruct (in_range_dec n z) as [Hz|Hz]; [|rewrite (pyidx_bad n z Hz); reflexivity].
  rewrite (pyidx_ok n z Hz). cbn [bind]. rewrite IH; [reflexivity|]. intros F. apply H. constructor; assumption.
Qed.
Lemma mapM_first {A B : Type} (f : A -> res B) l a r e : Forall (fun b => exists c, f b = Ok c) l -> f a = Err e -> mapM f (l ++ a :: r) = Err e.
Proof. intros H E. induction H as [|b l [c Ec] _ IH]; cbn [app mapM]; [rewrite E; reflexivity|]. rewrite Ec. cbn [bind]. rewrite IH. reflexivity. Qed.

Section Errors.
Context {K : StarRing}.

(** ** [get] *)
Theorem get_err (x : ltens K) idx : length idx = llen x ->
  Exists (fun p => length (pdims (snd p)) = 0 \/ ~ in_range (hd 0 (pdims (snd p))) (fst p)) (combine idx (lts x)) -> Forall lt_ok (lts x) -> mget x idx = Err IndexError.
Proof.
  intros L Ex W. unfold mget. rewrite L, Nat.eqb_refl. cbn [passert]. rewrite (mapM_err1 _ IndexError); [reflexivity| |].
  - apply Forall_forall. intros p _. unfold local_get. destruct (Nat.ltb _ 3); [right; reflexivity|]. destruct (pyidx _ _); [left; eexists; reflexivity|right; reflexivity].
  - apply Exists_exists in Ex. destruct Ex as (p & Hp & H). apply Exists_exists. exists p. split; [exact Hp|]. destruct p as [z t]. cbn [fst snd] in *. apply in_combine_r in Hp. pose proof (proj1 (Forall_forall _ _) W t Hp) as Ht.
    unfold local_get, ndim. pose proof (lt_ok_shp t Ht) as Es. rewrite Es. destruct (pdims t) as [|d ds] eqn:Ed.
    + reflexivity.
    + destruct H as [H|H]; [discriminate|]. cbn [hd] in H. cbn [nth app]. rewrite (pyidx_bad _ _ H). destruct (Nat.ltb _ _); reflexivity.
Qed.

(** ** [transpose] *)
Definition transposable (n : nat) (axes : list Z) : Prop :=
  Forall (fun z => in_range n (z + 1)) axes /\ Permutation (0 :: map (fun z => pos_of n (z + 1)) axes ++ [n - 1]) (seq 0 n).
Lemma mapM_shift n axes : mapM (fun ax => match norm_axis n (ax + 1) with Some k => Ok k | None => Err ValueError end) axes =
  mapM (fun z => match norm_axis n z with Some k => Ok k | None => Err ValueError end) (map (fun z => z + 1)%Z axes).
Proof. induction axes as [|a l IH]; [reflexivity|]. cbn [mapM map]. rewrite IH. reflexivity. Qed.
Lemma local_transpose_cases (t : nd K) axes : (exists u, transposable (ndim t) axes /\ local_transpose t (Some axes) = Ok u) \/ (~ transposable (ndim t) axes /\ local_transpose t (Some axes) = Err ValueError).
Proof.
  unfold local_transpose, transposable. rewrite mapM_shift. assert (FM : Forall (fun z => in_range (ndim t) (z + 1)) axes <-> Forall (in_range (ndim t)) (map (fun z => z + 1)%Z axes)) by (rewrite Forall_map; tauto).
  destruct (Forall_dec_in (ndim t) (map (fun z => z + 1)%Z axes)) as [F|F].
  - rewrite (mapM_idx _ _ _ F), map_map. destruct (permb _ _) eqn:P.
    + left. eexists. split; [|reflexivity]. split; [apply FM; exact F|]. apply permb_iff in P. destruct P as [L P]. unfold is_perm in P. rewrite L in P. exact P.
    + right. split; [|reflexivity]. intros [_ Q]. apply Bool.not_true_iff_false in P. apply P. apply permb_iff. assert (L := Permutation_length Q). rewrite seq_length in L. split; [exact L|]. unfold is_perm. rewrite L. exact Q.
  - right. rewrite (mapM_idx_err _ _ _ F). split; [|reflexivity]. intros [Q _]. apply F, FM, Q.
Qed.
Theorem transpose_err (x : ltens K) axes : Exists (fun t => ~ transposable (ndim t) axes) (lts x) -> mtranspose x (Some axes) = Err ValueError.
Proof.
  intros Ex. unfold mtranspose. rewrite (mapM_err1 _ ValueError); [reflexivity| |].
  - apply Forall_forall. intros t _. destruct (local_transpose_cases t axes) as [(u & _ & E)|[_ E]]; eauto.
  - eapply Exists_impl; [|exact Ex]. intros t H. destruct (local_transpose_cases t axes) as [(u & Q & _)|[_ E]]; [contradiction|exact E].
Qed.
Theorem transpose_acc (x : ltens K) axes z : mtranspose x (Some axes) = Ok z -> Forall (fun t => transposable (ndim t) axes) (lts x).
Proof.
  intros E. apply Forall_forall. intros t Ht. destruct (local_transpose_cases t axes) as [(u & Q & _)|[Q _]]; [exact Q|]. rewrite transpose_err in E; [discriminate|]. apply Exists_exists. eauto.
Qed.

(** ** [sum] *)
Definition summable (n : nat) (zs : list Z) : Prop := Forall (fun z => in_range n (z + 1)) zs /\ NoDup (map (fun z => pos_of n (z + 1)) zs).
Lemma nsum_cases (t : nd K) zs : let r := nsum_py t (map (fun z => z + 1)%Z zs) in let F := Forall (fun z => in_range (ndim t) (z + 1)) zs in
  (summable (ndim t) zs -> exists u, r = Ok u) /\ (~ F -> r = Err IndexError) /\ (F -> ~ summable (ndim t) zs -> r = Err ValueError).
Proof.
  intros r F. unfold r, F, nsum_py. assert (FM : Forall (fun z => in_range (ndim t) (z + 1)) zs <-> Forall (in_range (ndim t)) (map (fun z => z + 1)%Z zs)) by (rewrite Forall_map; tauto).
  destruct zs as [|z zs]; [cbn [map]; split; [eauto|]; split; [intros H; exfalso; apply H; constructor|intros _ H; exfalso; apply H; split; constructor]|].
  set (l := z :: zs) in *. change (map (fun z0 => (z0 + 1)%Z) l) with ((z + 1)%Z :: map (fun z0 => (z0 + 1)%Z) zs) at 1 2 3. cbv iota. change ((z + 1)%Z :: map (fun z0 => (z0 + 1)%Z) zs) with (map (fun z0 => (z0 + 1)%Z) l).
  split; [|split].
  - intros [A B]. rewrite mapM_idx by (apply FM; exact A). cbn [bind]. rewrite map_map. rewrite (proj2 (nodupb_iff _) B). cbn [praise_unless]. eauto.
  - intros A. rewrite mapM_idx_err by (intros Q; apply A, FM, Q). reflexivity.
  - intros A B. rewrite mapM_idx by (apply FM; exact A). cbn [bind]. rewrite map_map. destruct (nodupb _) eqn:N; [|reflexivity]. exfalso. apply B. split; [exact A|]. apply nodupb_iff. exact N.
Qed.
(** The axes for each site, in the two forms that give an error that depends on the sites. *)
Lemma combine_split {A B : Type} (l1 : list A) a l2 (m1 : list B) b m2 : length l1 = length m1 -> combine (l1 ++ a :: l2) (m1 ++ b :: m2) = combine l1 m1 ++ (a, b) :: combine l2 m2.
Proof. revert m1. induction l1 as [|c l1 IH]; intros [|d m1] H; try discriminate; [reflexivity|]. cbn [app combine]. rewrite IH by (injection H; auto). reflexivity. Qed.
Lemma sum_sites_err (x : ltens K) axs pre t post apre zs apost arg : lts x = pre ++ t :: post -> length apre = length pre ->
  axs = map (map (fun z => z + 1)%Z) (apre ++ zs :: apost) -> sum_axes_per_site x arg = Ok axs ->
  Forall (fun p => summable (ndim (snd p)) (fst p)) (combine apre pre) ->
  let F := Forall (fun z => in_range (ndim t) (z + 1)) zs in (~ F -> msum_mpa x arg = Err IndexError) /\ (F -> ~ summable (ndim t) zs -> msum_mpa x arg = Err ValueError).
Proof.
  intros El L Ea Es H F. destruct (nsum_cases t zs) as (_ & C2 & C3). fold F in C2, C3. unfold msum_mpa. rewrite Es, Ea, El. cbn [bind]. rewrite map_app. cbn [map]. rewrite combine_split by (rewrite map_length; exact L).
  assert (P : Forall (fun b => exists c, nsum_py (snd b) (fst b) = Ok c) (combine (map (map (fun z => (z + 1)%Z)) apre) pre)).
  { clear - H L. revert pre L H. induction apre as [|a l IH]; intros [|u pre] L H; try discriminate; [constructor|]. cbn [map combine] in *. inversion H as [|? ? H1 H2]; subst. constructor; [apply (proj1 (nsum_cases u a)); exact H1|apply IH; [injection L; auto|exact H2]]. }
  split.
  - intros A. rewrite (mapM_first (fun p => nsum_py (snd p) (fst p)) _ (map (fun z => z + 1)%Z zs, t) _ IndexError P (C2 A)). reflexivity.
  - intros A B. rewrite (mapM_first (fun p => nsum_py (snd p) (fst p)) _ (map (fun z => z + 1)%Z zs, t) _ ValueError P (C3 A B)). reflexivity.
Qed.
Theorem sum_err (x : ltens K) pre t post zs : lts x = pre ++ t :: post -> Forall (fun u => summable (ndim u) zs) pre ->
  let F := Forall (fun z => in_range (ndim t) (z + 1)) zs in
  (~ F -> msum_mpa x (SList (map EInt zs)) = Err IndexError) /\ (F -> ~ summable (ndim t) zs -> msum_mpa x (SList (map EInt zs)) = Err ValueError).
Proof.
  intros El H F. assert (U : forall l, uniform_axes (map EInt l) = Ok (map (fun z => z + 1)%Z l)) by (intros l; unfold uniform_axes; induction l as [|z l IH]; [reflexivity|]; cbn [map mapM bind]; rewrite IH; reflexivity).
  apply (sum_sites_err x (map (fun _ => map (fun z => z + 1)%Z zs) (lts x)) pre t post (map (fun _ => zs) pre) zs (map (fun _ => zs) post)); [exact El|apply map_length| | |].
  - rewrite El, !map_app. cbn [map]. rewrite !map_map. reflexivity.
  - unfold sum_axes_per_site. destruct zs as [|z zs]; [reflexivity|]. cbn [map]. rewrite <- (map_cons EInt z zs), U. reflexivity.
  - clear - H. induction H as [|u pre Hu _ IH]; [constructor|]. cbn [map combine]. constructor; assumption.
Qed.
Theorem sum_err_sites (x : ltens K) pre t post apre zs apost : Forall lt_ok (lts x) -> lts x = pre ++ t :: post -> length apre = length pre -> length apost = length post ->
  Forall (fun p => summable (ndim (snd p)) (fst p)) (combine apre pre) ->
  let F := Forall (fun z => in_range (ndim t) (z + 1)) zs in let arg := SList (map ESeq (apre ++ zs :: apost)) in
  (~ F -> msum_mpa x arg = Err IndexError) /\ (F -> ~ summable (ndim t) zs -> msum_mpa x arg = Err ValueError).
Proof.
  intros W El L1 L2 H F arg. apply (sum_sites_err x (map (map (fun z => z + 1)%Z) (apre ++ zs :: apost)) pre t post apre zs apost); [exact El|exact L1|reflexivity| |exact H].
  unfold arg. assert (G : forall l (ns : list Z), length l = length ns -> mapM (fun p => site_axes (fst p) (snd p)) (combine (map ESeq l) ns) = Ok (map (map (fun z => z + 1)%Z) l)).
  { induction l as [|a l IH]; intros [|n ns] L; try discriminate; [reflexivity|]. cbn [map combine mapM fst snd site_axes bind]. rewrite IH by (injection L; auto). reflexivity. }
  assert (LL : length (apre ++ zs :: apost) = llen x) by (unfold llen; rewrite El, !app_length; cbn [length]; lia).
  unfold sum_axes_per_site. assert (N : exists a l, apre ++ zs :: apost = a :: l) by (destruct apre; cbn; eauto). destruct N as (a & l & E). rewrite E in *. cbn [map]. rewrite <- (map_cons ESeq a l), map_length, LL, Nat.eqb_refl. cbn [passert].
  apply G. rewrite LL. unfold ndims, llen. rewrite map_length. reflexivity.
Qed.
Theorem sum_err_length (x : ltens K) a ls : length (a :: ls) <> llen x -> msum_mpa x (SList (map ESeq (a :: ls))) = Err AssertionError.
Proof. intros H. unfold msum_mpa, sum_axes_per_site. cbn [map]. rewrite <- (map_cons ESeq a ls), map_length. apply Nat.eqb_neq in H. rewrite H. reflexivity. Qed.

(** ** Broadcasting *)
(** Shapes compared from the last axis: [fits v sh], [v] can be repeated to the shape [sh]; [compat a b],
    arrays of shapes [a] and [b] can be added. *)
Fixpoint fits_rev (v sh : list nat) : Prop :=
  match v, sh with [], _ => True | d :: v', e :: sh' => (d = 1 \/ d = e) /\ fits_rev v' sh' | _ :: _, [] => False end.
Definition fits (v sh : list nat) : Prop := fits_rev (rev v) (rev sh).
Fixpoint compat_rev (a b : list nat) : Prop :=
  match a, b with d :: a', e :: b' => (d = e \/ d = 1 \/ e = 1) /\ compat_rev a' b' | _, _ => True end.
Definition compat (a b : list nat) : Prop := compat_rev (rev a) (rev b).
Fixpoint common_rev (a b : list nat) : list nat :=
  match a, b with [], _ => b | _, [] => a | d :: a', e :: b' => (if Nat.eqb d 1 then e else d) :: common_rev a' b' end.
Definition common (a b : list nat) : list nat := rev (common_rev (rev a) (rev b)).

Lemma rev_combine {A B : Type} (l : list A) (m : list B) : length l = length m -> rev (combine l m) = combine (rev l) (rev m).
Proof.
  revert m. induction l as [|a l IH]; intros [|b m] H; try discriminate; [reflexivity|]. cbn [combine rev]. rewrite IH by (injection H; auto). rewrite combine_split by (rewrite !rev_length; injection H; auto). reflexivity.
Qed.
Lemma forallb_rev {A : Type} (f : A -> bool) l : forallb f (rev l) = forallb f l.
Proof. induction l as [|a l IH]; [reflexivity|]. cbn [rev forallb]. rewrite forallb_app, IH. cbn. rewrite andb_true_r. apply andb_comm. Qed.
Lemma rev_rep {A : Type} (a : A) n : rev (repeat a n) = repeat a n.
Proof. induction n as [|n IH]; [reflexivity|]. cbn [repeat rev]. rewrite IH. symmetry. apply repeat_cons. Qed.
Lemma bcast_ok_iff sh v : bcast_ok sh v = true <-> fits v sh.
Proof.
  unfold bcast_ok, bcast_shape, fits. rewrite andb_true_iff, Nat.leb_le. rewrite <- (rev_length v), <- (rev_length sh).
  assert (G : forall v sh, length v <= length sh -> (forallb (fun p => (snd p =? 1) || (snd p =? fst p)) (combine sh (v ++ repeat 1 (length sh - length v))) = true <-> fits_rev v sh)).
  { clear. induction v as [|d v IH]; intros sh H.
    - cbn [app length fits_rev]. split; [auto|]. intros _. apply forallb_forall. intros [a b] Hp. apply in_combine_r in Hp. apply repeat_spec in Hp. subst b. reflexivity.
    - destruct sh as [|e sh]; [cbn in H; lia|]. cbn [length] in *. cbn [Nat.sub app combine forallb fits_rev snd fst]. rewrite andb_true_iff, orb_true_iff, !Nat.eqb_eq, IH by lia. tauto. }
  assert (N : forall v sh, fits_rev v sh -> length v <= length sh) by (clear; induction v as [|d v IH]; intros [|e sh] H; cbn in *; try lia; try tauto; destruct H as [_ H]; specialize (IH _ H); lia).
  split.
  - intros [L H]. apply G; [exact L|]. rewrite <- forallb_rev, rev_combine in H by (rewrite app_length, repeat_length; rewrite !rev_length in *; lia). rewrite rev_app_distr, rev_rep in H. exact H.
  - intros H. pose proof (N _ _ H) as L. split; [exact L|]. rewrite <- forallb_rev, rev_combine by (rewrite app_length, repeat_length; rewrite !rev_length in *; lia). rewrite rev_app_distr, rev_rep. apply G; assumption.
Qed.
Lemma bcast_common_rev ra rb : bcast_common (rev ra) (rev rb) = rev (common_rev ra rb).
Proof.
  unfold bcast_common. rewrite !rev_length. set (n := Nat.max (length ra) (length rb)).
  rewrite <- (rev_rep 1 (n - length ra)), <- (rev_rep 1 (n - length rb)), <- !rev_app_distr. rewrite <- rev_combine by (rewrite !app_length, !repeat_length; lia). rewrite map_rev. f_equal. unfold n. clear n.
  assert (R : forall l : list nat, map (fun p => if fst p =? 1 then snd p else fst p) (combine (repeat 1 (length l)) l) = l) by (induction l as [|d l IH]; [reflexivity|]; cbn; rewrite IH; reflexivity).
  assert (R' : forall l : list nat, map (fun p => if fst p =? 1 then snd p else fst p) (combine l (repeat 1 (length l))) = l) by (induction l as [|d l IH]; [reflexivity|]; cbn; rewrite IH; destruct (Nat.eqb_spec d 1) as [->|]; reflexivity).
  revert rb. induction ra as [|d ra IH]; intros [|e rb].
  - reflexivity.
  - cbn [length Nat.max Nat.sub app]. rewrite Nat.sub_diag, app_nil_r. exact (R (e :: rb)).
  - cbn [length Nat.max Nat.sub app]. rewrite Nat.sub_diag, app_nil_r. exact (R' (d :: ra)).
  - cbn [length Nat.max Nat.sub app combine map common_rev fst snd]. f_equal. apply IH.
Qed.
Lemma bcast_common_eq a b : bcast_common a b = common a b.
Proof. rewrite <- (rev_involutive a), <- (rev_involutive b). rewrite bcast_common_rev. unfold common. rewrite !rev_involutive. reflexivity. Qed.
Lemma compat_iff a b : compat a b <-> fits a (common a b) /\ fits b (common a b).
Proof.
  unfold compat, common, fits. rewrite rev_involutive. generalize (rev a) as ra, (rev b) as rb. clear. induction ra as [|d ra IH]; intros [|e rb]; cbn [compat_rev common_rev fits_rev].
  - tauto.
  - split; [intros _; split; [exact I|]|tauto]. split; [auto|]. clear. induction rb as [|f rb IH]; cbn; auto.
  - split; [intros _; split; [|exact I]|tauto]. split; [auto|]. clear. induction ra as [|f rb IH]; cbn; auto.
  - rewrite IH. destruct (Nat.eqb_spec d 1); split; intros; intuition lia.
Qed.
Lemma common_same s : common s s = s.
Proof. unfold common. rewrite <- (rev_involutive s) at 3. f_equal. generalize (rev s). induction l as [|d l IH]; [reflexivity|]. cbn. rewrite IH. destruct (Nat.eqb_spec d 1); congruence. Qed.
(** The index of the array of shape [v] that is repeated at [idx]. *)
Definition restrict (v idx : list nat) : list nat := map (fun p => if Nat.eqb (fst p) 1 then 0 else snd p) (combine v (skipn (length idx - length v) idx)).
Lemma ravel_zeros k s : forall j, ravel (repeat 1 k ++ s) (repeat 0 k ++ j) = ravel s j.
Proof. induction k as [|k IH]; intros j; [reflexivity|]. cbn [repeat app ravel]. rewrite IH. lia. Qed.
Lemma bcast_get_spec sh (v : nd K) idx : fits (shp v) sh -> length idx = length sh -> bcast_get sh v idx = get v (restrict (shp v) idx).
Proof.
  intros F L. assert (Lv : length (shp v) <= length sh) by (apply bcast_ok_iff in F; unfold bcast_ok in F; apply andb_true_iff in F; destruct F as [F _]; apply Nat.leb_le in F; exact F).
  unfold bcast_get, bcast_shape, restrict. cbv zeta. set (k := length sh - length (shp v)). unfold get. cbn [shp reshape dat].
  replace (bcast_idx (repeat 1 k ++ shp v) idx) with (repeat 0 k ++ map (fun p => if Nat.eqb (fst p) 1 then 0 else snd p) (combine (shp v) (skipn k idx))).
  - rewrite ravel_zeros. rewrite L. reflexivity.
  - rewrite <- (firstn_skipn k idx) at 2. assert (Lk : length (firstn k idx) = k) by (rewrite firstn_length; unfold k; lia). unfold bcast_idx.
    generalize (skipn k idx) as r. revert Lk. generalize (firstn k idx) as f. generalize k as n. clear. induction n as [|n IH]; intros [|a f] Lk r; try discriminate.
    + cbn [repeat app]. generalize (shp v) as s. revert r. induction r as [|b r IH]; intros [|d s]; cbn [combine map]; try reflexivity. cbn [fst snd]. f_equal. apply IH.
    + cbn [repeat app combine map snd]. rewrite (IH f) by (injection Lk; auto). reflexivity.
Qed.
Theorem nadd_py_spec (a b : nd K) : ndwf a -> ndwf b ->
  (compat (shp a) (shp b) -> exists c, nadd_py a b = Ok c /\ ndwf c /\ shp c = common (shp a) (shp b) /\
     forall idx, inr idx (common (shp a) (shp b)) -> get c idx = (get a (restrict (shp a) idx) + get b (restrict (shp b) idx))%K) /\
  (~ compat (shp a) (shp b) -> nadd_py a b = Err ValueError).
Proof.
  intros Wa Wb. unfold nadd_py. rewrite bcast_common_eq. destruct (list_eqb (shp a) (shp b)) eqn:E.
  - apply list_eqb_eq in E. assert (C : compat (shp a) (shp b)) by (rewrite E; unfold compat; generalize (rev (shp b)); induction l; cbn; auto).
    split; [|intros H; contradiction]. intros _. exists (nadd a b). split; [reflexivity|]. split; [apply wf_nadd|]. rewrite <- E, common_same. split; [reflexivity|].
    intros idx Hi. assert (R : restrict (shp a) idx = idx).
    { unfold restrict. rewrite (inr_length _ _ Hi), Nat.sub_diag. cbn [skipn]. clear - Hi. induction Hi as [|i d is ds Hd Hr IH]; [reflexivity|]. cbn [combine map fst snd]. rewrite IH. destruct (Nat.eqb_spec d 1); [f_equal; lia|reflexivity]. }
    rewrite R. apply get_nadd. exact Hi.
  - split.
    + intros C. destruct (proj1 (compat_iff _ _) C) as [F1 F2]. rewrite (proj2 (bcast_ok_iff _ _) F1), (proj2 (bcast_ok_iff _ _) F2). cbn [andb praise_unless]. set (sh := common (shp a) (shp b)) in *.
      eexists. split; [reflexivity|]. split; [apply wf_nadd|]. split; [reflexivity|]. intros idx Hi. rewrite get_nadd by exact Hi. unfold bcast_to. rewrite !get_tab by exact Hi.
      rewrite !bcast_get_spec by (assumption || exact (inr_length _ _ Hi)). reflexivity.
    + intros C. destruct (_ && _) eqn:B; [|reflexivity]. exfalso. apply C. apply andb_true_iff in B. destruct B as [B1 B2]. apply compat_iff. split; apply bcast_ok_iff; assumption.
Qed.
End Errors.
