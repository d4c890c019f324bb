(** [pauli_mpp] and [pauli_mpps]: elements, completeness, informational completeness. *)
From Coq Require Import Reals Lra.
From Verif Require Export PauliMpp PfKronPovm PfCPovm PfBounds PfSelect.
Open Scope nat_scope.

Section Tens.
Context {K : StarRing}.
Add Ring Kr : (k_ring K).
(** The tensor product of matrices, entry [is], [js]. *)
Fixpoint tens (fs : list (nat -> nat -> K)) (is js : list nat) : K :=
  match fs, is, js with f :: fs', i :: is', j :: js' => (f i j * tens fs' is' js')%K | _, _, _ => k1 end.
(** The trace of a matrix on [n] sites of dimension [d] times another. *)
Definition trdots (ds : list nat) (f g : list nat -> list nat -> K) : K :=
  msum ds (fun is => msum ds (fun js => f is js * g js is))%K.

(** Products of local elements that separate local matrices separate matrices on
    several sites. *)
Lemma tens_ic d (El : (nat -> nat -> K) -> Prop) :
  (forall rho sigma, (forall f, El f -> trdot d f rho = trdot d f sigma) -> forall a b, a < d -> b < d -> rho a b = sigma a b) ->
  forall n rho sigma, (forall fs, length fs = n -> Forall El fs -> trdots (repeat d n) (tens fs) rho = trdots (repeat d n) (tens fs) sigma) ->
  forall is js, inr is (repeat d n) -> inr js (repeat d n) -> rho is js = sigma is js.
Proof.
  intros HL. induction n as [|n IH]; intros rho sigma H is js Hi Hj.
  - apply inr_nil_inv in Hi, Hj. subst. specialize (H [] eq_refl (Forall_nil _)). unfold trdots in H. cbn in H.
    transitivity (k1 * rho [] [])%K; [ring|]. etransitivity; [exact H|ring].
  - cbn [repeat] in Hi, Hj. apply inr_cons_inv in Hi, Hj. destruct Hi as (i & is' & -> & Hi1 & Hi2). destruct Hj as (j & js' & -> & Hj1 & Hj2).
    apply (IH (fun a b => rho (i :: a) (j :: b)) (fun a b => sigma (i :: a) (j :: b))); auto.
    intros fs Lf Hf.
    apply (HL (fun a b => trdots (repeat d n) (tens fs) (fun x y => rho (a :: x) (b :: y))) (fun a b => trdots (repeat d n) (tens fs) (fun x y => sigma (a :: x) (b :: y)))); auto.
    intros f Ef.
    assert (Q : forall r, trdot d f (fun a b => trdots (repeat d n) (tens fs) (fun x y => r (a :: x) (b :: y))) = trdots (repeat d (S n)) (tens (f :: fs)) r).
    { intros r. unfold trdot, trdots. cbn [repeat msum]. apply bigsum_ext. intros a Ha.
      rewrite msum_bigsum_swap. apply bigsum_ext. intros b Hb. rewrite <- msum_mul_l. apply msum_ext. intros x Hx. rewrite <- msum_mul_l. apply msum_ext. intros y Hy. cbn [tens]. ring. }
    rewrite !Q. apply H; [cbn; congruence|constructor; assumption].
Qed.
End Tens.

Add Ring Cr : (k_ring CS).
Definition cpauli_parts := pauli_parts Ci c_rsq.
Definition cpauli_mpp := pauli_mpp Ci c_rsq c_frac c_close1.
Definition cpauli_mpps := pauli_mpps Ci c_rsq.


(** ** Products of local POVMs *)
Lemma triples_prod (ps : list (povm CS)) : forall ks is js, length ks = length ps -> length is = length ps -> length js = length ps ->
  prod_elem (map (@elements CS) ps) ks is js = tens (zip2 povm_elem ps ks) is js.
Proof.
  induction ps as [|p ps IH]; intros [|k ks] [|i is] [|j js] L1 L2 L3; try discriminate; [reflexivity|].
  unfold prod_elem. rewrite triples_cons. cbn [map zip2 tens kprod fold_right]. change (fold_right kmul k1) with (@kprod CS).
  fold (prod_elem (map (@elements CS) ps) ks is js). rewrite IH by (cbn in *; lia). reflexivity.
Qed.
Definition local_ok (p : povm CS) (n d : nat) : Prop := ndwf (elements p) /\ povm_complete p n d.
(** [z] is the product of the local POVMs [ps], with [ns] outcomes at dimension [d]. *)
Definition product_of (d : nat) (ps : list (povm CS)) (ns : list nat) (z : ltens CS) : Prop :=
  povm_ok z ns (repeat d (length ns)) /\ Forall (fun r => r = 1) (ranks z) /\
  (forall ks is js, inr ks ns -> inr is (repeat d (length ns)) -> inr js (repeat d (length ns)) ->
     entry z (triples ks is js) = tens (zip2 povm_elem ps ks) is js) /\
  psd_elems z /\ sums_to_id z.
Lemma Forall2_combine_rep (ps : list (povm CS)) ns d : Forall2 (fun p n => local_ok p n d /\ 0 < n <= 255) ps ns -> 0 < d ->
  Forall2 (fun p q => ndwf (elements p) /\ povm_complete p (fst q) (snd q) /\ 0 < fst q <= 255 /\ 0 < snd q) ps (combine ns (repeat d (length ns))).
Proof. intros H Hd. induction H as [|p n ps ns ((W & C) & N) H IH]; cbn [length repeat combine]; constructor; auto. Qed.
Lemma kron_product d (ps : list (povm CS)) ns : ps <> [] -> 0 < d -> Forall2 (fun p n => local_ok p n d /\ 0 < n <= 255) ps ns ->
  exists z, kron_povm (map (@elements CS) ps) = Ok z /\ product_of d ps ns z.
Proof.
  intros Hne Hd H. assert (L : length ps = length ns) by (clear - H; induction H; cbn; congruence).
  pose proof (Forall2_combine_rep ps ns d H Hd) as H'. assert (Ln : length ns = length (repeat d (length ns))) by (rewrite repeat_length; reflexivity).
  destruct (kron_local ps ns _ Hne Ln H') as (z & Ez & Pz & A & B & R). exists z. split; [exact Ez|]. split; [exact Pz|]. split; [exact R|]. split; [|auto].
  assert (H1 : Forall2 (fun f p => elems_ok f (fst p) (snd p)) (map (@elements CS) ps) (combine ns (repeat d (length ns)))).
  { clear - H'. induction H' as [|p q ps qs (W & (S & _) & N & D) H IH]; cbn [map]; constructor; [|exact IH]. split; [exact W|]. split; [exact S|]. auto. }
  assert (Hn : map (@elements CS) ps <> []) by (destruct ps; [congruence|discriminate]).
  destruct (kron_povm_spec _ ns _ Hn Ln H1) as (z' & Ez' & _ & _ & N). rewrite Ez in Ez'. injection Ez' as <-.
  intros ks is js Hk Hi Hj. rewrite N by assumption. apply triples_prod; [apply inr_length in Hk|apply inr_length in Hi|apply inr_length in Hj]; rewrite ?repeat_length in *; congruence.
Qed.
(** Chaining one-site POVMs is the product. *)
Lemma local1_lts (p : povm CS) x : from_local_povm (elements p) 1 = Ok x -> lts x = [add_virt (elements p)].
Proof.
  unfold from_local_povm, from_kron, mpa_new, lt_init. cbn [repeat map length fst snd]. change (Z.of_nat 1) with 1%Z. change (0 <? 1)%Z with true. change (0 <=? 0)%Z with true. change (1 <=? 1)%Z with true.
  cbn [passert andb]. intros E. destruct (check_bonds [add_virt (elements p)]) as [u|e]; cbn [bind] in E; [|discriminate E].
  unfold povm_checks in E. repeat match type of E with passert ?b _ = _ => destruct b; [cbn [passert] in E|discriminate E] end.
  injection E as <-. reflexivity.
Qed.
Lemma chain_kron (ps : list (povm CS)) xs : ps <> [] -> Forall2 (fun p x => from_local_povm (elements p) 1 = Ok x) ps xs ->
  (do z <- mchain xs; povm_checks z) = kron_povm (map (@elements CS) ps).
Proof.
  intros Hne H. unfold kron_povm, from_kron.
  assert (E : flat_map lts xs = map add_virt (map (@elements CS) ps)).
  { clear Hne. induction H as [|p x ps xs Hx H IH]; [reflexivity|]. cbn [flat_map map]. rewrite (local1_lts p x Hx), IH. reflexivity. }
  destruct H; [congruence|]. unfold mchain. rewrite E. reflexivity.
Qed.

(** ** The parts *)
Definition nparts (d : nat) : nat := if Nat.eqb d 2 then 3 else 2.
Lemma pauli_count_parts d : pauli_count d = nparts d * (d * (d - 1)).
Proof. unfold pauli_count, nparts. destruct (Nat.eqb_spec d 2) as [->|]; reflexivity. Qed.
Lemma x_local d p : 2 <= d -> cx_povm d = Ok p -> local_ok p (d * (d - 1)) d.
Proof.
  intros Hd E. destruct (cx_complete d Hd) as (p' & E' & C). rewrite E in E'. injection E' as <-. split; [|exact C].
  destruct (x_povm_ok c_rsq d Hd) as (p' & E' & _ & (W & _)). unfold cx_povm in E. rewrite E in E'. injection E' as <-. exact W.
Qed.
Lemma y_local d p : 2 <= d -> cy_povm d = Ok p -> local_ok p (d * (d - 1)) d.
Proof.
  intros Hd E. destruct (cy_complete d Hd) as (p' & E' & C). rewrite E in E'. injection E' as <-. split; [|exact C].
  destruct (y_povm_ok Ci c_rsq d Hd) as (p' & E' & _ & (W & _)). unfold cy_povm in E. rewrite E in E'. injection E' as <-. exact W.
Qed.
Lemma z_local d p : 0 < d -> cz_povm d = Ok p -> local_ok p d d.
Proof.
  intros Hd E. destruct (cz_complete d Hd) as (p' & E' & C). rewrite E in E'. injection E' as <-. split; [|exact C].
  destruct (z_povm_ok (K:=CS) d Hd) as (p' & E' & _ & (W & _)). unfold cz_povm in E. rewrite E in E'. injection E' as <-. exact W.
Qed.
Lemma cparts d : 2 <= d -> exists x y z, cx_povm d = Ok x /\ cy_povm d = Ok y /\ cz_povm d = Ok z /\
  cpauli_parts d = Ok (if Nat.eqb d 2 then [x; y; z] else [x; y]).
Proof.
  intros Hd. destruct (cx_complete d Hd) as (x & Ex & _). destruct (cy_complete d Hd) as (y & Ey & _). destruct (cz_complete d ltac:(lia)) as (z & Ez & _).
  exists x, y, z. split; [exact Ex|]. split; [exact Ey|]. split; [exact Ez|]. unfold cpauli_parts, pauli_parts. destruct (Nat.ltb_spec 1 d); [|lia]. cbn [passert].
  unfold cx_povm in Ex. unfold cy_povm in Ey. unfold cz_povm in Ez. rewrite Ex, Ey, Ez. cbn [bind]. destruct (Nat.eqb d 2); reflexivity.
Qed.
Lemma parts_local d ps : 2 <= d -> cpauli_parts d = Ok ps -> length ps = nparts d /\ Forall (fun p => local_ok p (d * (d - 1)) d) ps.
Proof.
  intros Hd E. destruct (cparts d Hd) as (x & y & z & Ex & Ey & Ez & E'). rewrite E in E'. injection E' as ->. unfold nparts. destruct (Nat.eqb_spec d 2) as [->|N].
  - split; [reflexivity|]. apply Forall_cons; [exact (x_local 2 x Hd Ex)|]. apply Forall_cons; [exact (y_local 2 y Hd Ey)|]. apply Forall_cons; [exact (z_local 2 z ltac:(lia) Ez)|]. constructor.
  - split; [reflexivity|]. apply Forall_cons; [exact (x_local d x Hd Ex)|]. apply Forall_cons; [exact (y_local d y Hd Ey)|]. constructor.
Qed.
(** The elements of [pauli_povm] are those of the parts, one part after the other,
    divided by the number of parts. *)
Lemma pauli_elems d p ps : 2 <= d -> cpauli_povm d = Ok p -> cpauli_parts d = Ok ps ->
  forall c l a b, c < length ps -> l < d * (d - 1) -> a < d -> b < d ->
    povm_elem p (c * (d * (d - 1)) + l) a b = (c_frac (nparts d) * povm_elem (nth c ps p) l a b)%K.
Proof.
  intros Hd E Eps. destruct (parts_local d ps Hd Eps) as (L & F). unfold cpauli_povm, pauli_povm in E. unfold cpauli_parts in Eps. rewrite Eps in E. cbn [bind] in E. rewrite L in E.
  assert (Hn : 0 < nparts d) by (unfold nparts; destruct (Nat.eqb d 2); lia).
  assert (Hm : 0 < d * (d - 1)) by nia.
  destruct (concat_complete ps (repeat (d * (d - 1)) (nparts d)) (repeat (/ INR (nparts d))%R (nparts d)) d true) as (p' & E' & _ & _ & N).
  - rewrite <- L. clear - F. induction F as [|p ps Hp F IH]; cbn [length repeat]; constructor; auto.
  - rewrite repeat_length. congruence.
  - destruct (nparts d); [lia|]. cbn. lia.
  - unfold nparts. destruct (Nat.eqb d 2); cbn; lra.
  - apply Forall_forall. intros w Hw. apply repeat_spec in Hw. subst w. left. apply Rinv_0_lt_compat. apply lt_0_INR. exact Hn.
  - assert (Er : map toC (repeat (/ INR (nparts d))%R (nparts d)) = repeat (c_frac (nparts d)) (nparts d)).
    { unfold c_frac. generalize (/ INR (nparts d))%R. intros r. clear. induction (nparts d) as [|n IH]; [reflexivity|]. cbn [repeat map]. rewrite IH. reflexivity. }
    rewrite Er, E in E'. injection E' as <-. intros c l a b Hc Hl Ha Hb.
    assert (Es : list_sum (firstn c (repeat (d * (d - 1)) (nparts d))) = c * (d * (d - 1))).
    { rewrite L in Hc. clear - Hc. revert c Hc. induction (nparts d) as [|n IH]; intros [|c] Hc; try lia; [reflexivity|]. cbn [repeat firstn list_sum fold_right Nat.mul]. change (fold_right Nat.add 0) with list_sum. rewrite IH by lia. reflexivity. }
    rewrite <- Es. apply (N c); auto.
    + apply nth_error_nth'. exact Hc.
    + rewrite L in Hc. clear - Hc. revert c Hc. generalize (/ INR (nparts d))%R. induction (nparts d) as [|n IH]; intros r [|c] Hc; try lia; [reflexivity|]. cbn [repeat nth_error]. apply IH. lia.
    + rewrite L in Hc. clear - Hc Hl. revert c Hc. induction (nparts d) as [|n IH]; intros [|c] Hc; try lia; [exact Hl|]. cbn [repeat nth]. apply IH. lia.
Qed.
Lemma pauli_local d p : 2 <= d -> cpauli_povm d = Ok p -> local_ok p (pauli_count d) d.
Proof.
  intros Hd E. destruct (cpauli_complete d Hd) as (p' & E' & _ & C). rewrite E in E'. injection E' as <-. split; [|exact C].
  destruct (pauli_povm_ok Ci c_rsq c_frac c_close1 c_frac_1 c_close1_1 d Hd) as (p' & E' & _ & (W & _)). unfold cpauli_povm in E. rewrite E in E'. injection E' as <-. exact W.
Qed.
(** The parts separate matrices, and so do the elements of [pauli_povm]. *)
Lemma trdot_born d p rho k : trdot d (povm_elem p k) rho = born d p rho k.
Proof. reflexivity. Qed.
Lemma pauli_local_ic d p : 2 <= d -> cpauli_povm d = Ok p -> forall rho sigma,
  (forall f, (exists k, k < pauli_count d /\ f = povm_elem p k) -> trdot d f rho = trdot d f sigma) -> forall a b, a < d -> b < d -> rho a b = sigma a b.
Proof.
  intros Hd E rho sigma H. destruct (cpauli_ic d Hd) as (p' & E' & _ & I). rewrite E in E'. injection E' as <-. apply I. intros k Hk. apply (H (povm_elem p k)). eauto.
Qed.
Lemma parts_local_ic d ps p0 : 2 <= d -> cpauli_parts d = Ok ps -> forall rho sigma,
  (forall f, (exists c k, c < length ps /\ k < d * (d - 1) /\ f = povm_elem (nth c ps p0) k) -> trdot d f rho = trdot d f sigma) -> forall a b, a < d -> b < d -> rho a b = sigma a b.
Proof.
  intros Hd E rho sigma H. destruct (cpauli_ic d Hd) as (p & Ep & _ & I). apply I. intros k Hk. rewrite pauli_count_parts in Hk.
  destruct (parts_local d ps Hd E) as (L & _). assert (Hm : d * (d - 1) <> 0) by nia.
  pose proof (Nat.div_mod k (d * (d - 1)) Hm) as Dk. set (c := k / (d * (d - 1))) in *. set (l := k mod (d * (d - 1))) in *.
  assert (Hl : l < d * (d - 1)) by (apply Nat.mod_upper_bound; exact Hm). assert (Hc : c < length ps) by (rewrite L; nia).
  assert (Q : forall r, born d p r k = (c_frac (nparts d) * trdot d (povm_elem (nth c ps p0) l) r)%K).
  { intros r. rewrite <- trdot_born. unfold trdot. rewrite <- bigsum_mul_l. apply bigsum_ext. intros a Ha. rewrite <- bigsum_mul_l. apply bigsum_ext. intros b Hb.
    replace k with (c * (d * (d - 1)) + l) by lia. rewrite (pauli_elems d p ps Hd Ep E c l a b Hc Hl Ha Hb). rewrite (nth_indep ps p p0 Hc). symmetry. apply (Rmul_assoc (k_ring CS)). }
  rewrite !Q. f_equal. apply H. exists c, l. auto.
Qed.

(** ** pauli_mpp *)
Lemma Forall2_rep {A B : Type} (P : A -> B -> Prop) a b n : P a b -> Forall2 P (repeat a n) (repeat b n).
Proof. intros H. induction n; cbn [repeat]; constructor; assumption. Qed.
Lemma map_rep' {A B : Type} (f : A -> B) a n : map f (repeat a n) = repeat (f a) n.
Proof. induction n; cbn; congruence. Qed.
Lemma count_pos d : 2 <= d -> 0 < pauli_count d.
Proof. intros H. rewrite pauli_count_parts. unfold nparts. destruct (Nat.eqb d 2); nia. Qed.
Lemma count_small d : 2 <= d <= 11 -> pauli_count d <= 255.
Proof. intros H. unfold pauli_count. destruct (Nat.eqb d 2); [lia|]. assert (d * (d - 1) <= 11 * 10) by (apply Nat.mul_le_mono; lia). lia. Qed.
Theorem pauli_mpp_spec n d : 0 < n -> 2 <= d <= 11 ->
  exists p z, cpauli_povm d = Ok p /\ cpauli_mpp n d = Ok z /\ product_of d (repeat p n) (repeat (pauli_count d) n) z.
Proof.
  intros Hn Hd. destruct (cpauli_complete d ltac:(lia)) as (p & E & _). pose proof (pauli_local d p ltac:(lia) E) as Hl.
  destruct (kron_product d (repeat p n) (repeat (pauli_count d) n)) as (z & Ez & Pz).
  - destruct n; [lia|discriminate].
  - lia.
  - apply Forall2_rep. split; [exact Hl|]. split; [apply count_pos; lia|apply count_small; lia].
  - exists p, z. split; [exact E|]. split; [|exact Pz]. unfold cpauli_mpp, pauli_mpp. unfold cpauli_povm in E. rewrite E. cbn [bind].
    rewrite from_local_kron, <- (map_rep' (@elements CS)). exact Ez.
Qed.
Lemma product_born d ps ns z rho ks : product_of d ps ns z -> inr ks ns ->
  mborn z rho ks = trdots (repeat d (length ns)) (tens (zip2 povm_elem ps ks)) rho.
Proof.
  intros (Pz & _ & N & _) Hk. destruct (povm_dims _ _ _ Pz) as (_ & D2 & _). unfold mborn, trdots. rewrite D2.
  apply msum_ext. intros is Hi. apply msum_ext. intros js Hj. rewrite N by assumption. reflexivity.
Qed.
Lemma zip2_rep {A B C : Type} (f : A -> B -> C) a : forall l, zip2 f (repeat a (length l)) l = map (f a) l.
Proof. induction l as [|b l IH]; [reflexivity|]. cbn [length repeat zip2 map]. rewrite IH. reflexivity. Qed.
Theorem pauli_mpp_ic n d p z rho sigma : 2 <= d -> cpauli_povm d = Ok p -> product_of d (repeat p n) (repeat (pauli_count d) n) z ->
  (forall ks, inr ks (outdims z) -> mborn z rho ks = mborn z sigma ks) ->
  forall is js, inr is (hdims z) -> inr js (hdims z) -> rho is js = sigma is js.
Proof.
  intros Hd E Pz H. pose proof Pz as (Oz & _). destruct (povm_dims _ _ _ Oz) as (D1 & D2 & _). rewrite repeat_length in D2. rewrite D2.
  apply (tens_ic d _ (pauli_local_ic d p Hd E)). intros fs Lf Hf.
  assert (G : exists ks, inr ks (repeat (pauli_count d) n) /\ fs = map (povm_elem p) ks).
  { subst n. clear - Hf. induction Hf as [|f fs (k & Hk & ->) Hf (ks & Hks & ->)]; [exists []; split; [constructor|reflexivity]|]. exists (k :: ks). split; [constructor; assumption|reflexivity]. }
  destruct G as (ks & Hk & ->). assert (Lk : length ks = n) by (apply inr_length in Hk; rewrite repeat_length in Hk; exact Hk).
  specialize (H ks). rewrite D1 in H. specialize (H Hk). rewrite !(product_born d _ _ z _ ks Pz Hk) in H. rewrite repeat_length in H. clear Lf. subst n. rewrite zip2_rep in H. exact H.
Qed.
Lemma checks_many (x : ltens CS) : Exists (fun n => 255 < n) (outdims x) -> povm_checks x = Err AssertionError.
Proof.
  intros H. unfold povm_checks. destruct (forallb _ (ndims x)); [|reflexivity]. destruct (forallb _ (mshape x)); [|reflexivity]. cbn [passert].
  replace (forallb (fun d => d <=? 255) (outdims x)) with false; [reflexivity|]. symmetry. apply Exists_exists in H. destruct H as (n & Hi & Hn).
  apply Bool.not_true_is_false. intros F. rewrite forallb_forall in F. specialize (F n Hi). apply Nat.leb_le in F. lia.
Qed.
Lemma local_many (f : nd CS) m d w : ndwf f -> shp f = [m; d; d] -> 255 < m -> 0 < w -> from_local_povm f w = Err AssertionError.
Proof.
  intros W S Hm Hw. unfold from_local_povm. destruct (from_kron_spec (K:=CS) (repeat f w)) as (z & Ez & Hz & Sz & _).
  - destruct w; [lia|discriminate].
  - apply Forall_forall. intros g Hg. apply repeat_spec in Hg. subst g. exact W.
  - rewrite Ez. cbn [bind]. apply checks_many. assert (T3 : Forall (fun p => length p = 3) (mshape z)).
    { rewrite Sz. apply Forall_forall. intros q Hq. apply in_map_iff in Hq. destruct Hq as (g & <- & Hg). apply repeat_spec in Hg. subst g. rewrite S. reflexivity. }
    destruct (outdims_leg1 z Hz T3) as [-> _]. rewrite Sz. unfold leg1. rewrite !map_rep', S. destruct w; [lia|]. cbn [repeat nth]. apply Exists_cons_hd. exact Hm.
Qed.
Theorem pauli_mpp_errors n d :
  (d < 2 -> cpauli_mpp n d = Err AssertionError) /\ (2 <= d -> n = 0 -> cpauli_mpp n d = Err AssertionError) /\
  (12 <= d -> 0 < n -> cpauli_mpp n d = Err AssertionError).
Proof.
  split; [|split].
  - intros H. destruct d as [|[|d]]; [reflexivity|reflexivity|lia].
  - intros Hd ->. destruct (cpauli_complete d Hd) as (p & E & _). unfold cpauli_mpp, pauli_mpp. unfold cpauli_povm in E. rewrite E. reflexivity.
  - intros Hd Hn. destruct (cpauli_complete d ltac:(lia)) as (p & E & _). destruct (pauli_local d p ltac:(lia) E) as (W & (S & _)).
    unfold cpauli_mpp, pauli_mpp. unfold cpauli_povm in E. rewrite E. cbn [bind]. apply (local_many _ (pauli_count d) d); auto.
    unfold pauli_count. destruct (Nat.eqb_spec d 2); [lia|]. assert (12 * 11 <= d * (d - 1)) by (apply Nat.mul_le_mono; lia). lia.
Qed.

(** ** pauli_mpps *)
Lemma product_Forall2 {A B : Type} (R : A -> B -> Prop) : forall ls ms, Forall2 (Forall2 R) ls ms -> Forall2 (Forall2 R) (product ls) (product ms).
Proof.
  intros ls ms H. induction H as [|l m ls ms Hl H IH]; [repeat constructor|]. cbn [product]. clear H.
  induction Hl as [|a b l m Hab Hl IHl]; [constructor|]. cbn [flat_map]. apply Forall2_app; [|exact IHl]. clear - IH Hab.
  induction IH as [|x y p q Hxy IH IHp]; [constructor|]. cbn [map]. constructor; [constructor; assumption|exact IHp].
Qed.
Lemma mapM_F2 {A B : Type} (f : A -> res B) (P : A -> B -> Prop) l : Forall (fun a => exists b, f a = Ok b /\ P a b) l ->
  exists bs, mapM f l = Ok bs /\ Forall2 (fun a b => f a = Ok b /\ P a b) l bs.
Proof.
  induction 1 as [|a l (b & E & Hb) H (bs & Ebs & IH)]; [exists []; split; [reflexivity|constructor]|].
  exists (b :: bs). split; [cbn [mapM]; rewrite E; cbn [bind]; rewrite Ebs; reflexivity|constructor; auto].
Qed.
Lemma product_in {A : Type} (ls : list (list A)) c : In c (product ls) -> Forall2 (fun x l => In x l) c ls.
Proof.
  revert c. induction ls as [|l ls IH]; intros c H; cbn [product] in H; [destruct H as [<-|[]]; constructor|].
  apply in_flat_map in H. destruct H as (x & Hx & H). apply in_map_iff in H. destruct H as (c' & <- & Hc). constructor; auto.
Qed.
Lemma small16 d : d <= 16 -> d * (d - 1) <= 255.
Proof. intros H. assert (d * (d - 1) <= 16 * 15) by (apply Nat.mul_le_mono; lia). lia. Qed.
Theorem pauli_mpps_spec n d : 0 < n -> 2 <= d <= 16 ->
  exists ps zs, cpauli_parts d = Ok ps /\ length ps = nparts d /\ cpauli_mpps n d = Ok zs /\ length zs = nparts d ^ n /\
    forall cs p0 z0, inr cs (repeat (nparts d) n) ->
      product_of d (map (fun c => nth c ps p0) cs) (repeat (d * (d - 1)) n) (nth (ravel (repeat (nparts d) n) cs) zs z0).
Proof.
  intros Hn Hd. destruct (cparts d ltac:(lia)) as (x & y & z & _ & _ & _ & Eps). set (ps := if d =? 2 then [x; y; z] else [x; y]) in *. clearbody ps. clear x y z.
  destruct (parts_local d ps ltac:(lia) Eps) as (L & F). set (m := d * (d - 1)) in *. assert (Hm : 0 < m <= 255) by (split; [unfold m; nia|apply small16; lia]).
  assert (Hp : forall p, In p ps -> local_ok p m d) by (apply Forall_forall; exact F).
  destruct (mapM_F2 (fun p => from_local_povm (elements p) 1) (fun _ _ => True) ps) as (xs & Exs & Fxs).
  { apply Forall_forall. intros p Hi. destruct (kron_product d [p] [m] ltac:(discriminate) ltac:(lia)) as (z & Ez & _); [constructor; [split; [apply Hp; exact Hi|exact Hm]|constructor]|].
    exists z. split; [exact Ez|exact I]. }
  assert (Fp : Forall2 (Forall2 (fun p x => from_local_povm (elements p) 1 = Ok x)) (product (repeat ps n)) (product (repeat xs n))).
  { apply product_Forall2. apply Forall2_rep. eapply Forall2_weaken; [|exact Fxs]. intros p x0 [H _]. exact H. }
  assert (Fq : Forall (fun c => c <> [] /\ Forall2 (fun p k => local_ok p k d /\ 0 < k <= 255) c (repeat m n)) (product (repeat ps n))).
  { apply Forall_forall. intros c Hc. apply product_in in Hc. split; [destruct n; [lia|]; cbn [repeat] in Hc; inversion Hc; discriminate|].
    clear - Hc Hp Hm. revert c Hc. induction n as [|n IH]; intros c Hc; cbn [repeat] in *; inversion Hc; subst; constructor; auto. }
  assert (G : exists zs, mapM (fun factors => do z <- mchain factors; povm_checks z) (product (repeat xs n)) = Ok zs /\
            Forall2 (fun c z => product_of d c (repeat m n) z) (product (repeat ps n)) zs).
  { clear - Fp Fq Hd. induction Fp as [|c xc pp qq Hc Fp IH]; [exists []; split; [reflexivity|constructor]|].
    apply Forall_cons_iff in Fq. destruct Fq as [[Hne Hk] Fq]. destruct (IH Fq) as (zs & Ez & Fz).
    destruct (kron_product d c (repeat m n) Hne ltac:(lia) Hk) as (z & Ek & Pz). exists (z :: zs). split; [|constructor; assumption].
    cbn [mapM]. rewrite (chain_kron c xc Hne Hc), Ek. cbn [bind]. rewrite Ez. reflexivity. }
  destruct G as (zs & Ez & Fz). assert (Lz : length zs = nparts d ^ n).
  { rewrite <- (Forall2_len _ _ _ _ _ Fz), product_length, map_rep', L. clear. induction n as [|n IH]; [reflexivity|]. cbn [repeat]. rewrite size_cons, IH. reflexivity. }
  exists ps, zs. split; [exact Eps|]. split; [exact L|]. split; [|split; [exact Lz|]].
  - unfold cpauli_mpps, pauli_mpps. unfold cpauli_parts in Eps. rewrite Eps. cbn [bind]. rewrite Exs. cbn [bind]. rewrite Ez. cbn [bind].
    assert (Fl : Forall (fun z => llen z = n /\ povm_checks z = Ok z) zs).
    { clear - Fz. induction Fz as [|c z pp zs Pz Fz IH]; constructor; auto. destruct Pz as ((P1 & P2 & P3 & P4 & P5) & _). split.
      - rewrite <- mshape_length, P4. unfold tshape. rewrite zip2_length by (rewrite !repeat_length; reflexivity). apply repeat_length.
      - eapply povm_checks_ok; [apply P1|exact P3|exact P4|exact P5]. }
    unfold mppl_new. replace (forallb _ zs) with true.
    + cbn [passert]. clear - Fl. induction Fl as [|z zs [_ E] Fl IH]; [reflexivity|]. cbn [mapM]. rewrite E. cbn [bind]. rewrite IH. reflexivity.
    + symmetry. destruct zs as [|z zs']; [reflexivity|]. apply forallb_forall. intros w Hw. rewrite Forall_forall in Fl. apply Nat.eqb_eq.
      rewrite (proj1 (Fl w Hw)), (proj1 (Fl z (or_introl eq_refl))). reflexivity.
  - intros cs p0 z0 Hc. assert (Em : map (@length (povm CS)) (repeat ps n) = repeat (nparts d) n) by (rewrite map_rep', L; reflexivity).
    assert (Hc' : inr cs (map (@length (povm CS)) (repeat ps n))) by (rewrite Em; exact Hc).
    pose proof (product_nth _ (repeat ps n) [] p0 cs Hc') as Pn. rewrite Em in Pn.
    assert (Ecs : zip2 (fun k l => nth k l p0) cs (repeat ps n) = map (fun c => nth c ps p0) cs).
    { apply inr_length in Hc. rewrite repeat_length in Hc. clear - Hc. revert cs Hc. induction n as [|n IH]; intros [|c cs] Hc; try discriminate; [reflexivity|]. cbn [repeat zip2 map]. rewrite IH by (cbn in Hc; lia). reflexivity. }
    rewrite <- Ecs, <- Pn. apply (Forall2_nth_inv _ _ _ _ _ Fz). rewrite product_length, Em. apply ravel_lt. exact Hc.
Qed.
Lemma zip2_map_l {A B C D : Type} (f : A -> B -> C) (g : D -> A) : forall l m, zip2 f (map g l) m = zip2 (fun x y => f (g x) y) l m.
Proof. induction l as [|x l IH]; intros [|y m]; [reflexivity..|]. cbn [map zip2]. rewrite IH. reflexivity. Qed.
Theorem pauli_mpps_ic n d ps zs p0 z0 rho sigma : 2 <= d -> cpauli_parts d = Ok ps ->
  (forall cs, inr cs (repeat (nparts d) n) ->
     product_of d (map (fun c => nth c ps p0) cs) (repeat (d * (d - 1)) n) (nth (ravel (repeat (nparts d) n) cs) zs z0)) ->
  length zs = nparts d ^ n ->
  (forall z, In z zs -> forall ks, inr ks (outdims z) -> mborn z rho ks = mborn z sigma ks) ->
  forall is js, inr is (repeat d n) -> inr js (repeat d n) -> rho is js = sigma is js.
Proof.
  intros Hd E Pz Lz H. destruct (parts_local d ps Hd E) as (L & _).
  apply (tens_ic d _ (parts_local_ic d ps p0 Hd E)). intros fs Lf Hf.
  assert (G : exists cs ks, inr cs (repeat (nparts d) n) /\ inr ks (repeat (d * (d - 1)) n) /\ fs = zip2 (fun c k => povm_elem (nth c ps p0) k) cs ks).
  { subst n. rewrite L in Hf. clear - Hf. induction Hf as [|f fs (c & k & Hc & Hk & ->) Hf (cs & ks & Hcs & Hks & ->)]; [exists [], []; repeat split; constructor|].
    exists (c :: cs), (k :: ks). split; [constructor; assumption|]. split; [constructor; assumption|reflexivity]. }
  destruct G as (cs & ks & Hc & Hk & ->). specialize (Pz cs Hc). set (z := nth (ravel (repeat (nparts d) n) cs) zs z0) in *.
  assert (Hin : In z zs). { apply nth_In. rewrite Lz. pose proof (ravel_lt _ _ Hc) as R. assert (Es : size (repeat (nparts d) n) = nparts d ^ n); [|congruence].
    clear. induction n as [|n IH]; [reflexivity|]. cbn [repeat]. rewrite size_cons, IH. reflexivity. }
  destruct Pz as (Oz & Pz'). destruct (povm_dims _ _ _ Oz) as (D1 & _). specialize (H z Hin ks). rewrite D1 in H. specialize (H Hk).
  rewrite !(product_born d _ _ z _ ks (conj Oz Pz') Hk) in H. rewrite repeat_length, zip2_map_l in H. exact H.
Qed.
Lemma mapM_hd_err {A B : Type} (f : A -> res B) a l e : f a = Err e -> mapM f (a :: l) = Err e.
Proof. intros E. cbn [mapM]. rewrite E. reflexivity. Qed.
Theorem pauli_mpps_errors n d :
  (d < 2 -> cpauli_mpps n d = Err AssertionError) /\ (17 <= d -> cpauli_mpps n d = Err AssertionError) /\
  (2 <= d <= 16 -> n = 0 -> cpauli_mpps n d = Err ValueError).
Proof.
  split; [|split].
  - intros H. destruct d as [|[|d]]; [reflexivity|reflexivity|lia].
  - intros Hd. destruct (cparts d ltac:(lia)) as (x & y & z & Ex & _ & _ & Eps). unfold cpauli_mpps, pauli_mpps. unfold cpauli_parts in Eps. rewrite Eps. cbn [bind].
    destruct (Nat.eqb_spec d 2); [lia|]. destruct (x_local d x ltac:(lia) Ex) as (W & (S & _)). rewrite (mapM_hd_err _ x _ AssertionError); [reflexivity|].
    apply (local_many _ (d * (d - 1)) d); auto. assert (17 * 16 <= d * (d - 1)) by (apply Nat.mul_le_mono; lia). lia.
  - intros Hd ->. destruct (cparts d ltac:(lia)) as (x & y & z & _ & _ & _ & Eps). destruct (parts_local d _ ltac:(lia) Eps) as (_ & F). unfold cpauli_mpps, pauli_mpps. unfold cpauli_parts in Eps. rewrite Eps. cbn [bind].
    destruct (mapM_F2 (fun p => from_local_povm (elements p) 1) (fun _ _ => True) (if d =? 2 then [x; y; z] else [x; y])) as (xs & Exs & _).
    { eapply Forall_impl; [|exact F]. intros p Hp. destruct (kron_product d [p] [d * (d - 1)] ltac:(discriminate) ltac:(lia)) as (w & Ew & _);
        [constructor; [split; [exact Hp|split; [nia|apply small16; lia]]|constructor]|]. exists w. split; [exact Ew|exact I]. }
    rewrite Exs. reflexivity.
Qed.
(** ** The two of them: an element of [pauli_mpp] is one of a member of [pauli_mpps],
    divided by the number of parts for every site. *)
Fixpoint cpow (x : CS) (n : nat) : CS := match n with O => k1 | S n' => kmul x (cpow x n') end.
Lemma tens_relation d p ps p0 : 2 <= d -> cpauli_povm d = Ok p -> cpauli_parts d = Ok ps ->
  forall n cs ks is js, inr cs (repeat (nparts d) n) -> inr ks (repeat (d * (d - 1)) n) -> inr is (repeat d n) -> inr js (repeat d n) ->
  tens (map (povm_elem p) (zip2 (fun c k => c * (d * (d - 1)) + k) cs ks)) is js =
  (cpow (c_frac (nparts d)) n * tens (zip2 (fun c k => povm_elem (nth c ps p0) k) cs ks) is js)%K.
Proof.
  intros Hd E Eps. destruct (parts_local d ps Hd Eps) as (L & _). induction n as [|n IH]; intros cs ks is js Hc Hk Hi Hj; cbn [repeat] in *.
  - apply inr_nil_inv in Hc, Hk. subst. cbn [zip2 map tens cpow]. symmetry. apply (Rmul_1_l (k_ring CS)).
  - apply inr_cons_inv in Hc, Hk, Hi, Hj. destruct Hc as (c & cs' & -> & Hc1 & Hc2). destruct Hk as (k & ks' & -> & Hk1 & Hk2).
    destruct Hi as (i & is' & -> & Hi1 & Hi2). destruct Hj as (j & js' & -> & Hj1 & Hj2). cbn [zip2 map tens cpow].
    rewrite (IH cs' ks' is' js' Hc2 Hk2 Hi2 Hj2). rewrite <- L in Hc1. rewrite (pauli_elems d p ps Hd E Eps c k i j Hc1 Hk1 Hi1 Hj1), (nth_indep ps p p0 Hc1).
    generalize (c_frac (nparts d)) (povm_elem (nth c ps p0) k i j) (cpow (c_frac (nparts d)) n) (tens (zip2 (fun c k => povm_elem (nth c ps p0) k) cs' ks') is' js').
    intros u v w t. apply cplx_eq; cbn; ring.
Qed.
Theorem pauli_relation n d p ps p0 z w cs ks is js : 2 <= d -> cpauli_povm d = Ok p -> cpauli_parts d = Ok ps ->
  product_of d (repeat p n) (repeat (pauli_count d) n) z ->
  product_of d (map (fun c => nth c ps p0) cs) (repeat (d * (d - 1)) n) w ->
  inr cs (repeat (nparts d) n) -> inr ks (repeat (d * (d - 1)) n) -> inr is (repeat d n) -> inr js (repeat d n) ->
  entry z (triples (zip2 (fun c k => c * (d * (d - 1)) + k) cs ks) is js) = (cpow (c_frac (nparts d)) n * entry w (triples ks is js))%K.
Proof.
  intros Hd E Eps (_ & _ & Nz & _) (_ & _ & Nw & _) Hc Hk Hi Hj. rewrite repeat_length in Nz, Nw. rewrite Nw by assumption.
  assert (Hz : inr (zip2 (fun c k => c * (d * (d - 1)) + k) cs ks) (repeat (pauli_count d) n)).
  { rewrite pauli_count_parts. clear - Hc Hk. revert cs ks Hc Hk. induction n as [|n IH]; intros cs ks Hc Hk; cbn [repeat] in *.
    - apply inr_nil_inv in Hc. subst. constructor.
    - apply inr_cons_inv in Hc, Hk. destruct Hc as (c & cs' & -> & Hc1 & Hc2). destruct Hk as (k & ks' & -> & Hk1 & Hk2). cbn [zip2]. constructor; [nia|apply IH; assumption]. }
  rewrite Nz by assumption. assert (Lz := inr_length _ _ Hz). rewrite repeat_length in Lz. rewrite <- Lz at 1. rewrite zip2_rep, zip2_map_l.
  apply (tens_relation d p ps p0 Hd E Eps); assumption.
Qed.
(** Qubits: projectors on the eigenvectors of the Pauli matrices. *)
Definition qubit_proj (c k : nat) : nat -> nat -> CS := match c with 0 => x_qubit k | 1 => y_qubit k | _ => z_qubit k end.
Lemma parts_qubit ps p0 : cpauli_parts 2 = Ok ps -> forall c k a b, c < 3 -> k < 2 -> a < 2 -> b < 2 -> povm_elem (nth c ps p0) k a b = qubit_proj c k a b.
Proof.
  intros E c k a b Hc Hk Ha Hb. destruct (cparts 2 ltac:(lia)) as (x & y & z & Ex & Ey & Ez & Eps). rewrite E in Eps. injection Eps as ->. cbn [Nat.eqb].
  destruct x_qubit_spec as (x' & Ex' & Nx). destruct y_qubit_spec as (y' & Ey' & Ny). destruct z_qubit_spec as (z' & Ez' & Nz).
  rewrite Ex in Ex'. rewrite Ey in Ey'. rewrite Ez in Ez'. injection Ex' as <-. injection Ey' as <-. injection Ez' as <-.
  destruct c as [|[|[|c]]]; cbn [nth qubit_proj]; [apply Nx|apply Ny|apply Nz|lia]; assumption.
Qed.
Lemma tens_qubit ps p0 : cpauli_parts 2 = Ok ps -> forall n cs ks is js, inr cs (repeat 3 n) -> inr ks (repeat 2 n) -> inr is (repeat 2 n) -> inr js (repeat 2 n) ->
  tens (zip2 (fun c k => povm_elem (nth c ps p0) k) cs ks) is js = tens (zip2 qubit_proj cs ks) is js.
Proof.
  intros E. induction n as [|n IH]; intros cs ks is js Hc Hk Hi Hj; cbn [repeat] in *; [apply inr_nil_inv in Hc; subst; reflexivity|].
  apply inr_cons_inv in Hc, Hk, Hi, Hj. destruct Hc as (c & cs' & -> & Hc1 & Hc2). destruct Hk as (k & ks' & -> & Hk1 & Hk2).
  destruct Hi as (i & is' & -> & Hi1 & Hi2). destruct Hj as (j & js' & -> & Hj1 & Hj2). cbn [zip2 tens].
  rewrite (parts_qubit ps p0 E c k i j Hc1 Hk1 Hi1 Hj1), (IH cs' ks' is' js' Hc2 Hk2 Hi2 Hj2). reflexivity.
Qed.
