(** Property theorems: construction from dense arrays, canonicalization, norm,
    compression and singular values.

    [outc F r P]: the call [r] returns a value satisfying [P], or it raises the
    LinAlgError of a factorisation for which [F] records that it can fail; with
    factorisations that never fail this is [exists z, r = Ok z /\ P z]
    ([CanonSpec.outc_total]). *)
From Verif Require Import Oracles PfBounds.

(** ** C02: from_array.  [ps] lists the dimensions of the legs of every site. *)
Theorem C02_from_array (K : StarRing) (qr : nd K -> res (nd K * nd K)) (a : nd K) ps rest :
  qr_sound qr -> ndwf a -> 0 < size (shp a) -> shp a = concat ps -> ps <> [] -> (length ps = 1 \/ last ps [] <> []) ->
  outc (qr_fails qr) (from_array qr a (NDList (map (@length nat) ps ++ rest)) false) (fun z =>
    mpa_ok z /\ mshape z = ps /\ to_array z = a /\ ranks z = full_rank ps /\
    canonical_form z = (Z.of_nat (llen z) - 1, Z.of_nat (llen z))%Z /\ canon_true z).
Proof. intros Hq H1 H2 H3 H4 H5. exact (from_array_spec qr Hq a ps rest H1 H2 H3 (conj H4 H5)). Qed.
Print Assumptions C02_from_array.
Theorem C02_from_array_int (K : StarRing) (qr : nd K -> res (nd K * nd K)) (a : nd K) n ps :
  qr_sound qr -> ndwf a -> 0 < size (shp a) -> shp a = concat ps -> ps <> [] -> 0 < n \/ length ps = 1 ->
  Forall (fun p => length p = n) ps ->
  outc (qr_fails qr) (from_array qr a (NDInt n) false) (fun z =>
    mpa_ok z /\ mshape z = ps /\ to_array z = a /\ ranks z = full_rank ps /\
    canonical_form z = (Z.of_nat (llen z) - 1, Z.of_nat (llen z))%Z /\ canon_true z).
Proof. intros Hq. exact (from_array_int_spec qr Hq a n ps). Qed.
Print Assumptions C02_from_array_int.
Theorem C02_from_array_none (K : StarRing) (qr : nd K -> res (nd K * nd K)) (a : nd K) :
  qr_sound qr -> ndwf a -> 0 < size (shp a) ->
  outc (qr_fails qr) (from_array qr a NDNone false) (fun z =>
    mpa_ok z /\ mshape z = [shp a] /\ to_array z = a /\ ranks z = [] /\
    canonical_form z = (Z.of_nat (llen z) - 1, Z.of_nat (llen z))%Z /\ canon_true z).
Proof. intros Hq. exact (from_array_none_spec qr Hq a). Qed.
Print Assumptions C02_from_array_none.
(** The other direction: the dense array of any MPArray, split along its own sites. *)
Theorem C02_roundtrip (K : StarRing) (qr : nd K -> res (nd K * nd K)) (x : ltens K) :
  qr_sound qr -> mpa_pos x -> length (mshape x) = 1 \/ last (mshape x) [] <> [] ->
  outc (qr_fails qr) (from_array qr (to_array x) (NDList (map (@length nat) (mshape x))) false) (fun z =>
    mpa_ok z /\ mshape z = mshape x /\ to_array z = to_array x /\ ranks z = full_rank (mshape x) /\
    canonical_form z = (Z.of_nat (llen z) - 1, Z.of_nat (llen z))%Z /\ canon_true z).
Proof.
  intros Hq Hx Hl. pose proof (C02_from_array K qr (to_array x) (mshape x) [] Hq (wf_to_array x)) as H. rewrite app_nil_r in H.
  apply H; auto.
  - rewrite shp_to_array by apply Hx. apply (bonds_pos_ends (lts x) 1 1); apply Hx.
  - apply shp_to_array; apply Hx.
  - destruct Hx as [[Hne _] _]. unfold mshape. destruct (lts x); [congruence|discriminate].
Qed.
Print Assumptions C02_roundtrip.
(** Refused or unusable arguments. *)
Theorem C02_none_virtual_error (K : StarRing) (qr : nd K -> res (nd K * nd K)) (a : nd K) :
  0 < ndim a -> from_array qr a NDNone true = Err AssertionError.
Proof. exact (from_array_none_virtual qr a). Qed.
Print Assumptions C02_none_virtual_error.
Example C02_ex : let a := to_array ex_ghz in let z := from_ok (from_array qr_gz a (NDInt 1) false) no_mpa in
  shp a = concat [[2];[2];[2]] /\ to_array z = a /\ canonical_form z = (2, 3)%Z /\ ranks z = [2; 2] /\
  let z' := from_ok (from_array qr_gz a (NDList [1; 2]) false) no_mpa in mshape z' = [[2];[2;2]] /\ to_array z' = a.
Proof. vms. Qed.
(** Trailing groups without legs are not returned as sites: the site structure is
    not always the one asked for (the array is). *)
Theorem C02_trailing_sites_refuted : exists (a : nd GZ) (z : ltens GZ),
  ndwf a /\ from_array qr_gz a (NDList [1; 0]) false = Ok z /\ to_array z = a /\ mshape z = [[2]].
Proof. exists (mk [2] [g 1 0; g 2 3]), (mkLt [mk [1;2;1] [g 1 0; g 2 3]] 0 1). vms. Qed.
Print Assumptions C02_trailing_sites_refuted.
(** [ndims = 0]: unbounded recursion for every array of dimension at least one. *)
Theorem C02_ndims_zero_refuted : exists (a : nd GZ), ndwf a /\ from_array qr_gz a (NDInt 0) false = Err RecursionError.
Proof. exists (mk [2] [g 1 0; g 2 3]). vms. Qed.
Print Assumptions C02_ndims_zero_refuted.

(** ** C03: from_array_global *)
Theorem C03_from_array_global (K : StarRing) (qr : nd K -> res (nd K * nd K)) (a : nd K) s p :
  qr_sound qr -> ndwf a -> 0 < size (shp a) -> 0 < s -> 0 < p -> ndim a = s * p ->
  outc (qr_fails qr) (from_array_global qr a (NDInt p)) (fun z =>
    mpa_ok z /\ llen z = s /\ Forall (fun sh => length sh = p) (mshape z) /\
    to_array_global z = Ok a /\ global_to_local a s 0 0 = Ok (to_array z) /\ ranks z = full_rank (mshape z) /\
    canonical_form z = (Z.of_nat (llen z) - 1, Z.of_nat (llen z))%Z /\ canon_true z).
Proof. intros Hq. exact (from_array_global_spec qr Hq a s p). Qed.
Print Assumptions C03_from_array_global.
Example C03_global_ex : let a := mk [2;2;2;2] (map gi [3;0;0;0; 0;0;0;0; 0;0;0;0; 0;0;0;2]%Z) in
  let z := from_ok (from_array_global qr_gz a (NDInt 2)) no_mpa in mshape z = [[2;2];[2;2]] /\ ranks z = [4] /\ to_array_global z = Ok a.
Proof. vms. Qed.

(** ** C17: group_sites, then split_sites *)
Theorem C17_group_split (K : StarRing) (qr : nd K -> res (nd K * nd K)) (x y : ltens K) n gs :
  qr_sound qr -> mpa_pos x -> 0 < n -> concat gs = mshape x ->
  Forall (fun g => length g = n /\ exists d, (0 < d \/ n = 1) /\ Forall (fun p => length p = d) g) gs ->
  group_sites x n = Ok y ->
  outc (qr_fails qr) (split_sites qr y n) (fun z => mpa_pos z /\ mshape z = mshape x /\ to_array z = to_array x /\
    canonical_form z = (0%Z, Z.of_nat (llen x))).
Proof. intros Hq. exact (group_split qr Hq x y n gs). Qed.
Print Assumptions C17_group_split.
Theorem C17_split_sites (K : StarRing) (qr : nd K -> res (nd K * nd K)) (x : ltens K) n gss :
  qr_sound qr -> mpa_pos x -> 0 < n -> mshape x = map (@concat nat) gss ->
  Forall (fun gs => length gs = n /\ exists d, (0 < d \/ n = 1) /\ Forall (fun p => length p = d) gs) gss ->
  outc (qr_fails qr) (split_sites qr x n) (fun z => mpa_pos z /\ mshape z = concat gss /\ to_array z = to_array x).
Proof.
  intros Hq Hx Hn E HF. eapply outc_weaken; [apply (split_sites_spec qr Hq x n gss (pos_chain x Hx) Hn E HF)|auto|].
  intros z [H1 [H2 [H3 [H4 _]]]]. split; [split; assumption|auto].
Qed.
Print Assumptions C17_split_sites.
(** A group of sites without legs comes back as a single site. *)
Theorem C17_no_legs_refuted : exists (x y z : ltens GZ), mpa_pos x /\ llen x = 2 /\ group_sites x 2 = Ok y /\ split_sites qr_gz y 2 = Ok z /\ llen z = 1.
Proof.
  exists (mkLt [mk [1;1] [g 2 0]; mk [1;1] [g 3 0]] 0 2), (mkLt [mk [1;1] [g 6 0]] 0 1), (mkLt [mk [1;1] [g 6 0]] 0 1).
  split; [split; [apply mpa_okb_ok; reflexivity|repeat constructor]|]. vms.
Qed.
Print Assumptions C17_no_legs_refuted.
Definition ex_ghz4 : ltens GZ :=
  mkLt [mk [1;2;2] [g 1 0; g 0 0; g 0 0; g 0 1]; mk [2;2;2] (map gi [3;0;0;0;0;0;0;2]%Z);
        mk [2;2;2] (map gi [1;0;0;0;0;0;0;1]%Z); mk [2;2;1] (map gi [1;0;0;1]%Z)] 0 4.
Example C17_split_ex : let y := from_ok (group_sites ex_ghz4 2) no_mpa in let z := from_ok (split_sites qr_gz y 2) no_mpa in
  mshape y = [[2;2];[2;2]] /\ mshape z = [[2];[2];[2];[2]] /\ to_array z = to_array ex_ghz4 /\ ranks z = [2; 2; 2].
Proof. vms. Qed.

(** ** C21: canonicalize does not change the array *)
Theorem C21_canonicalize (K : StarRing) (qr : nd K -> res (nd K * nd K)) (x z : ltens K) left right :
  qr_sound qr -> mpa_pos x -> cform_ok x -> canonicalize qr x left right = Ok z ->
  mpa_pos z /\ mshape z = mshape x /\ to_array z = to_array x /\ Forall2 le (ranks z) (ranks x).
Proof.
  intros Hq Hx Hc E. pose proof (cform_ok_weak x Hc) as Hw.
  destruct (canonicalize_sim qr Hq x z left right Hx Hw E) as [S _].
  destruct (sim_dense x z (proj1 Hx) S) as [H1 [H2 [H3 [H4 _]]]]. auto.
Qed.
Print Assumptions C21_canonicalize.

(** ** C22: the form reached.  [target_left], [target_right]: the normalised
    arguments; None asks for nothing, 'afull' for everything. *)
Definition target_left (n : Z) (a : carg) : Z :=
  match a with CANone => 0 | CAFull => n - 1 | CAInt z => if (z <? 0)%Z then n + z else z end.
Definition target_right (n : Z) (a : carg) : Z :=
  match a with CANone => n | CAFull => 1 | CAInt z => if (z <? 0)%Z then n + z else z end.
Theorem C22_canonicalize (K : StarRing) (qr : nd K -> res (nd K * nd K)) (x : ltens K) left right :
  qr_sound qr -> mpa_pos x -> cform_ok x -> canon_true x -> left <> CANone \/ right <> CANone ->
  let n := Z.of_nat (llen x) in let tl := target_left n left in let tr := target_right n right in
  ((0 <= tl < tr)%Z -> (tr <= n)%Z ->
   outc (qr_fails qr) (canonicalize qr x left right) (fun z => canon_true z /\ cform_ok z /\ (cform_lt x -> cform_lt z) /\
     (tl <= lcan z)%Z /\ (rcan z <= tr)%Z /\
     (* nothing asked for that is not there already: nothing changes *)
     ((tl <= lcan x)%Z -> (rcan x <= tr)%Z -> canonical_form z = canonical_form x))) /\
  (~ ((0 <= tl <= n)%Z /\ (0 <= tr <= n)%Z) -> canonicalize qr x left right = Err IndexError) /\
  ((0 <= tl <= n)%Z -> (0 <= tr <= n)%Z -> (tr <= tl)%Z -> canonicalize qr x left right = Err ValueError).
Proof.
  intros Hq Hx Hc Ht HD n tl tr. assert (D : ~ (left = CANone /\ right = CANone)) by (intros [-> ->]; destruct HD; congruence).
  assert (Etl : tl = left_target n left) by (subst tl; destruct left; cbn; try reflexivity; destruct (z <? 0)%Z; lia).
  assert (Etr : tr = right_target n right) by (subst tr; destruct right; cbn; try reflexivity; destruct (z <? 0)%Z; lia).
  destruct (canonicalize_errors qr x left right (proj1 (proj1 Hx)) D) as [E1 E2]. cbv zeta in E1, E2. fold n in E1, E2. rewrite <- Etl, <- Etr in E1, E2.
  split; [|split; [exact E1|intros A B C; apply E2; auto]]. intros H1 H2.
  pose proof (canonicalize_spec qr Hq 1 1 x left right (pos_chain _ Hx) (cform_ok_weak x Hc) D) as HS. cbv zeta in HS. fold n in HS. rewrite <- Etl, <- Etr in HS.
  eapply outc_weaken; [apply HS; lia|auto|]. intros z [S [_ [C [L R]]]]. destruct (sim_dense x z (proj1 Hx) S) as [_ [_ [_ [_ [T _]]]]].
  split; [auto|]. split; [auto|]. unfold cform_lt, canonical_form. rewrite L, R.
  destruct Hc as [Hc1 Hc2]. fold n in Hc1, Hc2. destruct (Z.ltb_spec tr (rcan x)); destruct (Z.ltb_spec (lcan x) tl); (split; [lia|split; [lia|split; [lia|]]]; intros; f_equal; lia).
Qed.
Print Assumptions C22_canonicalize.
(** Without arguments: one of the two full forms is reached, whichever is nearer. *)
Theorem C22_default (K : StarRing) (qr : nd K -> res (nd K * nd K)) (x : ltens K) :
  qr_sound qr -> mpa_pos x -> cform_ok x -> canon_true x -> let n := Z.of_nat (llen x) in
  outc (qr_fails qr) (canonicalize qr x CANone CANone) (fun z => canon_true z /\ cform_ok z /\ to_array z = to_array x /\
    (if (lcan x <? n - rcan x)%Z then rcan z = 1%Z /\ (1 < rcan x -> lcan z = 0)%Z
     else lcan z = (n - 1)%Z /\ (lcan x < n - 1 -> rcan z = n)%Z)).
Proof.
  intros Hq Hx Hc Ht n. eapply outc_weaken; [apply (canonicalize_default_spec qr Hq 1 1 x (pos_chain _ Hx) (cform_ok_weak x Hc))|auto|].
  intros z [S [_ [C F]]]. destruct (sim_dense x z (proj1 Hx) S) as [_ [_ [_ [E [T _]]]]]. fold n in F.
  split; [auto|]. split; [auto|]. split; [exact E|]. destruct Hc as [Hc1 Hc2]. fold n in Hc1, Hc2.
  destruct (lcan x <? n - rcan x)%Z.
  - destruct F as [F1 F2]. split; [lia|]. intros H. rewrite F2. replace (1 <? rcan x)%Z with true by (symmetry; apply Z.ltb_lt; lia). reflexivity.
  - destruct F as [F1 F2]. split; [lia|]. intros H. rewrite F2. replace (lcan x <? n - 1)%Z with true by (symmetry; apply Z.ltb_lt; lia). reflexivity.
Qed.
Print Assumptions C22_default.
Lemma ghz_pos : mpa_pos ex_ghz.
Proof. split; [apply mpa_okb_ok; reflexivity|repeat constructor; cbn; lia]. Qed.
Lemma ghz_form : cform_ok ex_ghz /\ cform_lt ex_ghz /\ canon_true ex_ghz.
Proof. split; [apply cform_okb_ok; reflexivity|]. split; [unfold cform_lt; cbn; lia|apply canon_trueb_ok; vm_compute; reflexivity]. Qed.
Example C22_ex : mpa_pos ex_ghz /\ cform_ok ex_ghz /\ canon_true ex_ghz /\
  let z := from_ok (canonicalize qr_gz ex_ghz (CAInt 1) (CAInt (-1))) no_mpa in
  canonical_form z = (1, 2)%Z /\ canon_trueb z = true /\ to_array z = to_array ex_ghz /\
  canonicalize qr_gz ex_ghz (CAInt 4) CANone = Err IndexError /\ canonicalize qr_gz ex_ghz (CAInt 2) (CAInt 2) = Err ValueError.
Proof. split; [exact ghz_pos|]. split; [apply ghz_form|]. split; [apply ghz_form|]. vms. Qed.

(** ** C23: histories of in-place operations *)
Theorem C23_histories_partial (K : StarRing) (qr : nd K -> res (nd K * nd K)) svd svdfunc (x z : ltens K) ops :
  qr_sound qr -> svd_sound svd -> tsvd_sound svdfunc ->
  mpa_pos x -> cform_wk x -> canon_true x -> hist qr svd svdfunc x ops z ->
  mpa_pos z /\ cform_wk z /\ canon_true z.
Proof. intros Hq Hs Ht H1 H2 H3 H. exact (hist_good qr Hq svd svdfunc Hs Ht x z ops (conj H1 (conj H2 H3)) H). Qed.
Print Assumptions C23_histories_partial.
(** What is missing: [hist] does not allow a flagged update while the two
    canonical regions touch.  Without that restriction the claim is false: two
    updates with honest 'left' flags, starting from a right-canonical array. *)
Theorem C23_honest_updates_refuted : exists (x y z : ltens GZ) (t u : nd GZ),
  mpa_pos x /\ cform_ok x /\ cform_lt x /\ canon_true x /\ left_iso t /\ left_iso u /\
  lt_update_int x 0 t (Some "left"%string) = Ok y /\ lt_update_int y 1 u (Some "left"%string) = Ok z /\
  mpa_ok z /\ canonical_form z = (2, 1)%Z /\ ~ canon_true z.
Proof.
  pose (t := mk [1;2;2] [g 1 0; g 0 0; g 0 0; g 1 0]). pose (v := mk [2;2;1] [g 1 0; g 0 0; g 0 0; g 1 0]). pose (u := mk [2;2;1] [g 1 0; g 0 0; g 0 0; g 0 0]).
  exists (mkLt [mk [1;2;2] [g 3 0; g 0 0; g 1 0; g 2 0]; v] 0 1), (mkLt [t; v] 1 1), (mkLt [t; u] 2 1), t, u.
  split; [split; [apply mpa_okb_ok; reflexivity|repeat constructor; cbn; lia]|]. split; [apply cform_okb_ok; reflexivity|].
  split; [unfold cform_lt; cbn; lia|]. split; [apply canon_trueb_ok; vm_compute; reflexivity|].
  split; [apply left_isob_ok; vm_compute; reflexivity|]. split; [apply left_isob_ok; vm_compute; reflexivity|].
  split; [vm_compute; reflexivity|]. split; [vm_compute; reflexivity|]. split; [apply mpa_okb_ok; reflexivity|]. split; [reflexivity|].
  intros [_ H]. specialize (H 1 ltac:(cbn; lia) ltac:(cbn; lia) 1 1 ltac:(vm_compute; lia) ltac:(vm_compute; lia)). vm_compute in H. discriminate.
Qed.
Print Assumptions C23_honest_updates_refuted.
Example C23_ex : exists z, hist qr_gz svd_gz tsvd_gz ex_ghz
  [HCanon CANone (CAInt 2); HMul (g 0 2); HUpd 2 (mk [2;2;1] [g 0 0; g 0 1; g 1 0; g 0 0]) (Some "right"%string);
   HCompress (Some 1) None DRight true; HSvals; HNorm] z /\ canonical_form z = (2, 3)%Z.
Proof.
  set (x1 := from_ok (canonicalize qr_gz ex_ghz CANone (CAInt 2)) no_mpa).
  set (x2 := from_ok (mimul x1 (g 0 2)) no_mpa).
  set (x3 := from_ok (lt_update_int x2 2 (mk [2;2;1] [g 0 0; g 0 1; g 1 0; g 0 0]) (Some "right"%string)) no_mpa).
  set (x4 := fst (from_ok (compress_svd qr_gz svd_gz tsvd_gz x3 (Some 1) None DRight true) (no_mpa, k0))).
  set (x5 := snd (from_ok (singularvals qr_gz svd_gz x4) ([], no_mpa))).
  set (x6 := snd (from_ok (norm_sq qr_gz x5) (k0, no_mpa))).
  exists x6. split; [|vmc].
  apply hist_cons with (y := x1); [exact I|vmc|]. apply hist_cons with (y := x2); [exact I|vmc|].
  apply hist_cons with (y := x3); [|vmc|].
  { split; [lia|]. split; [reflexivity|]. split; [vm_compute; lia|]. split.
    - split; [discriminate|]. intros _. apply right_isob_ok. vm_compute. reflexivity.
    - intros _. unfold cform_lt. vm_compute. reflexivity. }
  apply hist_cons with (y := x4); [split; [cbn; lia|exact I]|vmc|].
  apply hist_cons with (y := x5); [exact I|vmc|]. apply hist_cons with (y := x6); [exact I|vmc|]. apply hist_nil.
Qed.

(** ** C24: LocalTensors.update *)
Theorem C24_update_int (K : StarRing) (x : ltens K) k u f : mpa_ok x -> k < llen x -> ndwf u ->
  let t := nth k (lts x) dummy in
  (2 <= ndim u -> ldim u = ldim t -> rdim u = rdim t ->
   exists z, lt_update_int x (Z.of_nat k) u f = Ok z /\ mpa_ok z /\ lts z = set_nth k u (lts x) /\ ranks z = ranks x /\
     (canon_true x -> honest f u -> (flag_is f "left" = true \/ flag_is f "right" = true -> cform_lt x) -> canon_true z)) /\
  (~ (2 <= ndim u /\ ldim u = ldim t /\ rdim u = rdim t) -> lt_update_int x (Z.of_nat k) u f = Err AssertionError).
Proof.
  intros Hx Hk Hw t. destruct (update_int_spec x k u f Hx Hk Hw) as [H1 H2]. split; [|exact H2]. intros A B C.
  destruct (H1 A B C) as [z [E [M [L [R [_ [_ T]]]]]]]. exists z. auto.
Qed.
Print Assumptions C24_update_int.
Theorem C24_update_out_of_range (K : StarRing) (x : ltens K) z u f :
  (z < - Z.of_nat (llen x) \/ Z.of_nat (llen x) <= z)%Z -> lt_update_int x z u f = Err IndexError.
Proof. exact (update_int_range x z u f). Qed.
Print Assumptions C24_update_out_of_range.
(** A contiguous slice replaced by as many tensors, with a list of flags or None. *)
Theorem C24_update_slice (K : StarRing) (x1 x2 ys ts : list (nd K)) l r c fs a b :
  mpa_ok (mkLt (x1 ++ ys ++ x2) l r) -> ys <> [] -> length ts = length ys -> bonds ys a b -> bonds ts a b ->
  (c = COne None /\ fs = repeat None (length ts)) \/ c = CSeq fs -> length fs = length ts ->
  let k := Z.of_nat (length x1) in
  exists z, lt_update_slice (mkLt (x1 ++ ys ++ x2) l r) (mkSlice (Some k) (Some (k + Z.of_nat (length ys))%Z) None) ts c = Ok z /\
    mpa_ok z /\ lts z = x1 ++ ts ++ x2 /\
    (canon_true (mkLt (x1 ++ ys ++ x2) l r) -> Forall2 honest fs ts -> flags_safe l r k fs -> canon_true z).
Proof.
  intros Hx Hy L B1 B2 Hf Lf k.
  destruct (update_slice_spec x1 x2 ys ts l r c fs a b Hx Hy L B1 B2) as [z [E [M [El [_ [_ T]]]]]]; [destruct Hf as [[-> ->]| -> ]; reflexivity|exact Lf|].
  exists z. auto.
Qed.
Print Assumptions C24_update_slice.
(** Negative indices, string flags, and slices with a different number of tensors
    are accepted and leave an inconsistent object. *)
Theorem C24_negative_index_refuted : exists (x z : ltens GZ) (u : nd GZ),
  mpa_ok x /\ cform_ok x /\ cform_lt x /\ canon_true x /\ lt_update_int x (-1) u None = Ok z /\ canonical_form z = (-1, 2)%Z /\ ~ canon_true z.
Proof.
  exists ex_c, (mkLt (removelast (lts ex_c) ++ [mk [2;2;1] [g 5 0; g 0 0; g 0 0; g 0 0]]) (-1) 2), (mk [2;2;1] [g 5 0; g 0 0; g 0 0; g 0 0]).
  split; [apply ex_ok; cbn; tauto|]. split; [apply ex_cform; cbn; tauto|]. split; [unfold cform_lt; cbn; lia|]. split; [apply ex_canon; cbn; tauto|].
  split; [vmc|]. split; [reflexivity|].
  intros [_ H]. specialize (H 2 ltac:(cbn; lia) ltac:(cbn; lia) 0 0 ltac:(vm_compute; lia) ltac:(vm_compute; lia)). vm_compute in H. discriminate.
Qed.
Print Assumptions C24_negative_index_refuted.
Theorem C24_slice_count_refuted : exists (x z : ltens GZ) (u : nd GZ),
  mpa_ok x /\ lt_update_slice x (mkSlice (Some 0%Z) (Some 2%Z) None) [u] (COne None) = Ok z /\ ~ mpa_ok z.
Proof.
  pose (t := mk [1;1;1] [g 1 0]). exists (mkLt [mk [1;1;2] [g 1 0; g 2 0]; mk [2;1;1] [g 1 0; g 1 0]; t] 0 3), (mkLt [t; mk [2;1;1] [g 1 0; g 1 0]; t] 0 3), t.
  split; [apply mpa_okb_ok; reflexivity|]. split; [vmc|]. intros [_ H]. apply bondsb_iff in H. discriminate.
Qed.
Print Assumptions C24_slice_count_refuted.
Theorem C24_string_flag_refuted : exists (x z : ltens GZ) (us : list (nd GZ)),
  mpa_ok x /\ length us = llen x /\ bonds us 1 1 /\
  lt_update_slice x (mkSlice (Some 0%Z) (Some 5%Z) None) us (COne (Some "left"%string)) = Ok z /\ ~ mpa_ok z.
Proof.
  pose (t := mk [1;1;1] [g 1 0]). pose (a := mk [1;1;2] [g 1 0; g 2 0]). pose (m := mk [2;1;2] [g 1 0; g 2 0; g 1 0; g 1 0]). pose (b := mk [2;1;1] [g 1 0; g 2 0]).
  exists (mkLt [t;t;t;t;t] 0 5), (mkLt [a;m;m;m;t] 0 5), [a;m;m;m;b].
  split; [apply mpa_okb_ok; reflexivity|]. split; [reflexivity|]. split; [apply bondsb_iff; reflexivity|]. split; [vmc|].
  intros [_ H]. apply bondsb_iff in H. discriminate.
Qed.
Print Assumptions C24_string_flag_refuted.
Example C24_ex : mpa_ok ex_c /\ canon_true ex_c /\ cform_lt ex_c /\ left_iso (mk [2;2;2] (map gi [1;0;0;1;0;0;0;0]%Z)) /\
  match lt_update_int ex_c 1 (mk [2;2;2] (map gi [1;0;0;1;0;0;0;0]%Z)) (Some "left"%string) with
  | Ok z => canonical_form z = (2, 2)%Z | Err _ => False end.
Proof.
  split; [apply ex_ok; cbn; tauto|]. split; [apply ex_canon; cbn; tauto|]. split; [unfold cform_lt; cbn; lia|].
  split; [apply left_isob_ok; vm_compute; reflexivity|]. vm_compute. reflexivity.
Qed.

(** ** C25: norm and normdist (squared) *)
Theorem C25_norm (K : StarRing) (qr : nd K -> res (nd K * nd K)) (x : ltens K) :
  qr_sound qr -> mpa_pos x -> cform_ok x -> canon_true x ->
  outc (qr_fails qr) (norm_sq qr x) (fun p => fst p = msums (mshape x) (fun is => kconj (entry x is) * entry x is)%K /\
    mpa_pos (snd p) /\ cform_ok (snd p) /\ canon_true (snd p) /\ mshape (snd p) = mshape x /\ to_array (snd p) = to_array x).
Proof.
  intros Hq Hx Hc Ht. eapply outc_weaken; [apply (norm_dense qr Hq x Hx Hc Ht)|auto|]. intros [v z]. cbn [fst snd].
  intros [H1 [H2 [H3 [H4 [H5 [H6 _]]]]]]. repeat (split; [assumption|]). assumption.
Qed.
Print Assumptions C25_norm.
Theorem C25_normdist (K : StarRing) (qr : nd K -> res (nd K * nd K)) (x y : ltens K) :
  qr_sound qr -> mpa_pos x -> mpa_pos y -> cform_ok y -> mshape x = mshape y ->
  outc (qr_fails qr) (normdist_sq qr x y) (fun v =>
    v = msums (mshape x) (fun is => kconj (entry x is - entry y is) * (entry x is - entry y is))%K).
Proof. intros Hq. exact (normdist_dense qr Hq x y). Qed.
Print Assumptions C25_normdist.
(** normdist is the norm of the difference, errors included. *)
Theorem C25_normdist_sub (K : StarRing) (qr : nd K -> res (nd K * nd K)) (x y d : ltens K) :
  msub x y = Ok d -> normdist_sq qr x y = do p <- norm_sq qr d; Ok (fst p).
Proof. intros E. unfold normdist_sq. rewrite E. reflexivity. Qed.
Print Assumptions C25_normdist_sub.
(** A true form with all sites left-canonical, reached by one honest update, makes
    norm raise. *)
Theorem C25_norm_raises_refuted : exists (x z : ltens GZ) (t : nd GZ),
  mpa_pos x /\ cform_ok x /\ cform_lt x /\ canon_true x /\ left_iso t /\
  lt_update_int x 1 t (Some "left"%string) = Ok z /\ mpa_pos z /\ canon_true z /\ canonical_form z = (2, 2)%Z /\
  (forall qr, norm_sq qr z = Err ValueError) /\ mpa_copy z = Err AssertionError.
Proof.
  pose (t := mk [1;2;1] [g 1 0; g 0 0]). exists (mkLt [t; mk [1;2;1] [g 3 0; g 1 0]] 1 2), (mkLt [t; t] 2 2), t.
  split; [split; [apply mpa_okb_ok; reflexivity|repeat constructor; cbn; lia]|]. split; [apply cform_okb_ok; reflexivity|].
  split; [unfold cform_lt; cbn; lia|]. split; [apply canon_trueb_ok; vm_compute; reflexivity|]. split; [apply left_isob_ok; vm_compute; reflexivity|].
  split; [vmc|]. split; [split; [apply mpa_okb_ok; reflexivity|repeat constructor; cbn; lia]|].
  split; [apply canon_trueb_ok; vm_compute; reflexivity|]. split; [reflexivity|]. split; [|vmc]. intros qr. reflexivity.
Qed.
Print Assumptions C25_norm_raises_refuted.
Example C25_ex : let y := mkLt [mk [1;2;1] [g 3 0; g 0 0]; mk [1;2;1] [g 1 0; g 0 0]; mk [1;2;1] [g 1 0; g 0 0]] 0 3 in
  fst (from_ok (norm_sq qr_gz ex_ghz) (k0, no_mpa)) = g 13 0 /\ mshape y = mshape ex_ghz /\ normdist_sq qr_gz ex_ghz y = Ok (g 4 0).
Proof. vms. Qed.

(** ** C26 - C28: compression by SVD.  [inner_of x z] is <x|z> of the dense arrays,
    [norm2_of] and [dist2_of] the squared norm and distance. *)
Theorem C26_compress (K : StarRing) (qr : nd K -> res (nd K * nd K)) svd svdfunc (x : ltens K) rank relerr dir canon :
  qr_sound qr -> svd_sound svd -> tsvd_sound svdfunc ->
  mpa_pos x -> cform_ok x -> (llen x = 1 -> canon_true x) -> rank_pos rank -> relerr_ok relerr -> dir <> DOther ->
  outc (qr_fails qr \/ svd_fails svd \/ tsvd_fails svdfunc) (compress_svd qr svd svdfunc x rank relerr dir canon) (fun '(z, ov) =>
    mpa_pos z /\ mshape z = mshape x /\ Forall2 le (ranks z) (ranks x) /\ ranks_le rank z /\ cform_ok z /\ canon_true z /\
    ov = inner_of x z /\ ov = norm2_of z /\ (exists a, minner x z = Ok a /\ get a [] = ov)).
Proof.
  intros Hq Hs Ht Hx Hc H1 Hr Hre Hd.
  eapply outc_weaken; [apply (compress_dense qr Hq svd Hs svdfunc Ht x rank relerr dir canon Hx (cform_ok_weak x Hc) (fun e => conj Hc (H1 e)) Hr Hre Hd)|auto|].
  intros [z ov] [C1 [C2 [C3 [C4 [C5 [C6 [C7 [C8 [C9 _]]]]]]]]]. repeat (split; [solve [auto|congruence]|]). exact C9.
Qed.
Print Assumptions C26_compress.
Theorem C26_compress_form (K : StarRing) (qr : nd K -> res (nd K * nd K)) svd svdfunc (x z : ltens K) rank relerr dir canon ov :
  qr_sound qr -> svd_sound svd -> tsvd_sound svdfunc ->
  mpa_pos x -> cform_ok x -> 2 <= llen x -> rank_pos rank -> relerr_ok relerr ->
  compress_svd qr svd svdfunc x rank relerr dir canon = Ok (z, ov) ->
  match dir with
  | DLeft => canonical_form z = (0%Z, 1%Z)
  | DRight => canonical_form z = (Z.of_nat (llen x) - 1, Z.of_nat (llen x))%Z
  | _ => canonical_form z = if (lcan x <? Z.of_nat (llen x) - rcan x)%Z then (0%Z, 1%Z) else (Z.of_nat (llen x) - 1, Z.of_nat (llen x))%Z
  end.
Proof.
  intros Hq Hs Ht Hx Hc H2 Hr Hre E.
  pose proof (compress_svd_form svd svdfunc Hs Ht qr Hq x rank relerr dir canon 1 1 (pos_chain _ Hx) (cform_ok_weak x Hc) H2 Hr Hre z ov E) as H.
  cbv zeta in H. unfold canonical_form. destruct dir; cbn in H.
  - destruct (lcan x <? _)%Z; destruct H as [-> ->]; reflexivity.
  - destruct H as [-> ->]; reflexivity.
  - destruct H as [-> ->]; reflexivity.
  - destruct (compress_svd_errors svd svdfunc qr x rank relerr canon H2) as [_ E']. rewrite E' in E. discriminate.
Qed.
Print Assumptions C26_compress_form.
Theorem C26_compress_errors (K : StarRing) (qr : nd K -> res (nd K * nd K)) svd svdfunc (x : ltens K) rank relerr canon : 2 <= llen x ->
  (rank = Some 0 -> forall dir, dir <> DOther -> canon = false -> compress_svd qr svd svdfunc x rank relerr dir canon = Err AssertionError) /\
  compress_svd qr svd svdfunc x rank relerr DOther canon = Err ValueError.
Proof. exact (compress_svd_errors svd svdfunc qr x rank relerr canon). Qed.
Print Assumptions C26_compress_errors.
(** [truncated_svd] of extmath.py is one of the admitted truncated SVDs. *)
Theorem C26_truncated_svd (K : StarRing) (svd : nd K -> res (nd K * list K * nd K)) : svd_sound svd -> tsvd_sound (truncated_svd svd).
Proof. exact (truncated_svd_sound svd). Qed.
Print Assumptions C26_truncated_svd.
Example C26_ex : mpa_pos ex_ghz /\ cform_ok ex_ghz /\
  let r := from_ok (compress_svd qr_gz svd_gz tsvd_gz ex_ghz (Some 1) None DRight true) (no_mpa, k0) in
  ranks (fst r) = [1; 1] /\ snd r = g 9 0 /\ canonical_form (fst r) = (2, 3)%Z /\ entry (fst r) [[0];[0];[0]] = g 3 0 /\
  entry (fst r) [[1];[1];[1]] = g 0 0 /\ entry ex_ghz [[1];[1];[1]] = g 0 2.
Proof. split; [exact ghz_pos|]. split; [apply ghz_form|]. vms. Qed.

Theorem C27_error_identity (K : StarRing) (qr : nd K -> res (nd K * nd K)) svd svdfunc (x z : ltens K) rank relerr dir canon ov :
  qr_sound qr -> svd_sound svd -> tsvd_sound svdfunc ->
  mpa_pos x -> cform_ok x -> (llen x = 1 -> canon_true x) -> rank_pos rank -> relerr_ok relerr ->
  compress_svd qr svd svdfunc x rank relerr dir canon = Ok (z, ov) ->
  dist2_of x z = (norm2_of x - norm2_of z)%K /\
  outc (qr_fails qr) (normdist_sq qr x z) (fun d => d = (norm2_of x - norm2_of z)%K).
Proof.
  intros Hq Hs Ht Hx Hc H1 Hr Hre E.
  assert (D : dir <> DOther \/ llen x = 1).
  { destruct (le_lt_dec 2 (llen x)) as [L|L].
    - left. intros ->. destruct (compress_svd_errors svd svdfunc qr x rank relerr canon L) as [_ E']. rewrite E' in E. discriminate.
    - right. destruct Hx as [[Hne _] _]. unfold llen in *. destruct (lts x) as [|a [|b l]]; [congruence|reflexivity|cbn in L; lia]. }
  assert (C : mpa_pos z /\ mshape z = mshape x /\ cform_ok z /\ dist2_of x z = (norm2_of x - norm2_of z)%K).
  { assert (G : forall dir', dir' <> DOther -> compress_svd qr svd svdfunc x rank relerr dir' canon = Ok (z, ov) ->
                mpa_pos z /\ mshape z = mshape x /\ cform_ok z /\ dist2_of x z = (norm2_of x - norm2_of z)%K).
    { intros dir' Hd E'. pose proof (outc_inv _ _ _ _ (compress_dense qr Hq svd Hs svdfunc Ht x rank relerr dir' canon Hx (cform_ok_weak x Hc) (fun e => conj Hc (H1 e)) Hr Hre Hd) E') as H.
      cbn beta in H. destruct H as [C1 [C2 [_ [_ [C5 [_ [_ [_ [_ [C10 _]]]]]]]]]]. auto. }
    destruct D as [D|D]; [exact (G dir D E)|]. apply (G DLeft); [discriminate|]. rewrite <- E. unfold compress_svd. rewrite D. reflexivity. }
  destruct C as [C1 [C2 [C3 C4]]]. split; [exact C4|].
  eapply outc_weaken; [apply (normdist_dense qr Hq x z Hx C1 C3 (eq_sym C2))|auto|]. intros v ->. exact C4.
Qed.
Print Assumptions C27_error_identity.
(** The weight of the discarded singular values is the squared error: sweep to the
    right of an array that is right-canonical from site 1 on, and its mirror image. *)
Theorem C27_discarded_weight_right (K : StarRing) svd svdfunc (x z : ltens K) rank rk ys ov :
  svd_sound svd -> tsvd_sound svdfunc -> mpa_pos x -> 2 <= llen x -> 0 < rank -> (forall s, 0 < rk s) ->
  cform_ok x -> Forall right_iso (tl (lts x)) ->
  compress_svd_r svd svdfunc x rank (Some rk) = Ok (z, ys, ov) ->
  dist2_of x z = dweights ys /\ map snd ys = ranks z.
Proof.
  intros Hs Ht Hx L Hr Hk Hc HI E. destruct Hc as [Hc1 Hc2].
  pose proof (outc_inv _ _ _ _ (compress_svd_r_spec svd svdfunc Hs Ht 1 1 rank (Some rk) x (pos_chain _ Hx) L Hr Hk ltac:(lia) ltac:(lia)) E) as H.
  cbn beta in H. destruct H as [[C1 [C2 [_ [_ [_ [_ C7]]]]]] [_ [_ [_ [_ [M [_ W]]]]]]].
  specialize (W ltac:(discriminate) HI). pose proof (chain_pos z C1) as Hz.
  rewrite (ovl_inner x x (proj1 Hx) (proj1 Hx) eq_refl), (ovl_inner z z (proj1 Hz) (proj1 Hz) eq_refl) in W.
  rewrite (ovl_inner x z (proj1 Hx) (proj1 Hz) C2), (ovl_inner z z (proj1 Hz) (proj1 Hz) eq_refl) in C7.
  split; [|exact M]. rewrite (pythagoras x z C2 C7). unfold norm2_of. rewrite W. apply k_add_sub.
Qed.
Print Assumptions C27_discarded_weight_right.
Theorem C27_discarded_weight_left (K : StarRing) svd svdfunc (x z : ltens K) rank rk ys ov :
  svd_sound svd -> tsvd_sound svdfunc -> mpa_pos x -> 2 <= llen x -> 0 < rank -> (forall s, 0 < rk s) ->
  cform_ok x -> Forall left_iso (removelast (lts x)) ->
  compress_svd_l svd svdfunc x rank (Some rk) = Ok (z, ys, ov) ->
  dist2_of x z = dweights ys /\ map snd ys = rev (ranks z).
Proof.
  intros Hs Ht Hx L Hr Hk Hc HI E. destruct Hc as [Hc1 Hc2].
  pose proof (outc_inv _ _ _ _ (compress_svd_l_spec svd svdfunc Hs Ht 1 1 rank (Some rk) x (pos_chain _ Hx) L Hr Hk ltac:(lia) ltac:(lia)) E) as H.
  cbn beta in H. destruct H as [[C1 [C2 [_ [_ [_ [_ C7]]]]]] [_ [_ [_ [_ [M [_ W]]]]]]].
  specialize (W ltac:(discriminate) HI). pose proof (chain_pos z C1) as Hz.
  rewrite (ovl_inner x x (proj1 Hx) (proj1 Hx) eq_refl), (ovl_inner z z (proj1 Hz) (proj1 Hz) eq_refl) in W.
  rewrite (ovl_inner x z (proj1 Hx) (proj1 Hz) C2), (ovl_inner z z (proj1 Hz) (proj1 Hz) eq_refl) in C7.
  split; [|exact M]. rewrite (pythagoras x z C2 C7). unfold norm2_of. rewrite W. apply k_add_sub.
Qed.
Print Assumptions C27_discarded_weight_left.
Example C27_ex : let x := from_ok (canonicalize qr_gz ex_ghz CANone CAFull) no_mpa in
  match compress_svd_r svd_gz tsvd_gz x 1 (Some (fun s => length s)) with
  | Ok (z, ys, ov) => map fst ys = [[gi 3; gi 2]; [gi 3; gi 0]] /\ dweights ys = gi 4 /\ ov = gi 9 | Err _ => False end.
Proof. vm_compute. auto. Qed.

Theorem C28_exact (K : StarRing) (qr : nd K -> res (nd K * nd K)) svd svdfunc (x z : ltens K) rank relerr dir canon ov :
  qr_sound qr -> svd_sound svd -> tsvd_sound svdfunc ->
  mpa_pos x -> cform_ok x -> (llen x = 1 -> canon_true x) -> rank_pos rank -> relerr_ok relerr -> relerr_exact relerr -> dir <> DOther ->
  Forall (fun k => match rank with Some r => k <= r | None => True end) (ranks x) ->
  compress_svd qr svd svdfunc x rank relerr dir canon = Ok (z, ov) -> to_array z = to_array x /\ ov = norm2_of x.
Proof.
  intros Hq Hs Ht Hx Hc H1 Hr Hre Hrx Hd Hk E.
  pose proof (outc_inv _ _ _ _ (compress_dense qr Hq svd Hs svdfunc Ht x rank relerr dir canon Hx (cform_ok_weak x Hc) (fun e => conj Hc (H1 e)) Hr Hre Hd) E) as H.
  cbn beta in H. destruct H as [_ [C2 [_ [_ [_ [_ [C7 [_ [_ [_ C11]]]]]]]]]].
  assert (T : to_array z = to_array x) by (apply C11; [exact Hrx|]; unfold ranks_le; destruct rank; [exact Hk|exact I]).
  split; [exact T|]. rewrite C7. unfold norm2_of, inner_of, entry. rewrite T, C2. reflexivity.
Qed.
Print Assumptions C28_exact.
(** compression() compresses a copy: same result as compress on the array itself. *)
Theorem C28_compression (K : StarRing) (qr : nd K -> res (nd K * nd K)) svd svdfunc (x : ltens K) rank relerr dir canon :
  mpa_ok x -> cform_ok x -> mpa_copy x = Ok x /\
  compression_svd qr svd svdfunc x rank relerr dir canon = compress_svd qr svd svdfunc x rank relerr dir canon.
Proof. intros Hx Hc. pose proof (mpa_copy_id x Hx Hc) as E. split; [exact E|]. unfold compression_svd. rewrite E. reflexivity. Qed.
Print Assumptions C28_compression.
Example C28_ex : let r := from_ok (compress_svd qr_gz svd_gz tsvd_gz ex_ghz (Some 2) None DLeft true) (no_mpa, k0) in
  to_array (fst r) = to_array ex_ghz /\ snd r = g 13 0 /\ canonical_form (fst r) = (0, 1)%Z.
Proof. vms. Qed.

(** ** C29: singularvals.  [cut_svd x j s]: the dense array, cut before site [j], is
    [sum_c U_c s_c V_c] with orthonormal [U] and [V] and real [s]; the values are
    leading parts of spectra returned by the SVD routine, hence sorted and
    non-negative whenever those are. *)
Theorem C29_singularvals (K : StarRing) (qr : nd K -> res (nd K * nd K)) svd (x : ltens K) :
  qr_sound qr -> svd_sound svd -> mpa_pos x -> cform_ok x -> canon_true x -> 2 <= llen x ->
  outc (qr_fails qr \/ svd_fails svd) (singularvals qr svd x) (fun '(ss, z) =>
    length ss = llen x - 1 /\
    (forall j, j < llen x - 1 -> cut_svd x (S j) (nth j ss [])) /\
    (forall j, j < llen x - 1 -> bigsum (length (nth j ss [])) (fun c => nth c (nth j ss []) k0 * nth c (nth j ss []) k0)%K = norm2_of x) /\
    Forall (from_svd svd) ss /\
    mpa_pos z /\ mshape z = mshape x /\ to_array z = to_array x /\ canon_true z).
Proof.
  intros Hq Hs Hx Hc Ht L. pose proof (singularvals_spec qr svd Hq Hs 1 1 x (pos_chain _ Hx) (cform_ok_weak x Hc) Ht L) as H.
  destruct H as [[[ss z] [E H]]|H]; [|right; exact H]. left. exists (ss, z). split; [exact E|].
  destruct H as [H1 [H2 [H3 [H4 [_ [H5 [H6 _]]]]]]]. pose proof (chain_pos z H3) as Hz.
  split; [exact H1|]. split; [intros j Hj; apply schmidt_dense; [apply Hx|exact (H2 j Hj)]|].
  split; [intros j Hj; symmetry; apply (cut_svd_norm x (S j)); [apply Hx|exact (H2 j Hj)]|].
  split; [exact (singularvals_from qr svd x z ss E)|]. split; [exact Hz|]. split; [exact H4|]. split; [|exact H6].
  apply same_amps_dense; [apply Hx|apply Hz|exact H4|exact H5].
Qed.
Print Assumptions C29_singularvals.
Theorem C29_one_site (K : StarRing) (qr : nd K -> res (nd K * nd K)) svd (x : ltens K) : llen x = 1 -> singularvals qr svd x = Ok ([], x).
Proof. intros E. unfold singularvals. rewrite E. reflexivity. Qed.
Print Assumptions C29_one_site.
Example C29_ex : match singularvals qr_gz svd_gz ex_ghz with Ok (ss, _) => ss = [[gi 3; gi 2]; [gi 3; gi 2]] | Err _ => False end.
Proof. vm_compute. reflexivity. Qed.

(** ** C37: ranks after from_array and canonicalize *)
Theorem C37_from_array (K : StarRing) (qr : nd K -> res (nd K * nd K)) (a : nd K) ps rest z :
  qr_sound qr -> ndwf a -> 0 < size (shp a) -> shp a = concat ps -> ps <> [] -> (length ps = 1 \/ last ps [] <> []) ->
  from_array qr a (NDList (map (@length nat) ps ++ rest)) false = Ok z -> ranks z = full_rank ps.
Proof.
  intros Hq H1 H2 H3 H4 H5 E. pose proof (outc_inv _ _ _ _ (from_array_spec qr Hq a ps rest H1 H2 H3 (conj H4 H5)) E) as [_ [_ [_ [H _]]]]. exact H.
Qed.
Print Assumptions C37_from_array.
(** A left (right) sweep bounds every rank by the dimensions on its left (right);
    [canon_dims]: the sites already recorded as canonical are tall (wide), which is
    void for an array without recorded form. *)
Theorem C37_canonicalize (K : StarRing) (qr : nd K -> res (nd K * nd K)) (x y : ltens K) left right k :
  qr_sound qr -> mpa_pos x -> cform_ok x -> canon_dims x -> canonicalize qr x left right = Ok y -> S k < llen y ->
  canon_dims y /\ nth k (ranks y) 0 <= nth k (ranks x) 0 /\
  ((Z.of_nat k < lcan y)%Z -> nth k (ranks y) 0 <= size (concat (firstn (S k) (mshape y)))) /\
  ((rcan y <= Z.of_nat (S k))%Z -> nth k (ranks y) 0 <= size (concat (skipn (S k) (mshape y)))).
Proof.
  intros Hq Hx Hc Hd E Hk. pose proof (cform_ok_weak x Hc) as Hw.
  destruct (canonicalize_sim qr Hq x y left right Hx Hw E) as [S _].
  destruct (sim_dense x y (proj1 Hx) S) as [Py [_ [R [_ [_ D]]]]]. specialize (D Hd). split; [exact D|].
  split; [apply (Forall2_nth_inv _ _ _ _ _ R); rewrite ranks_length; lia|]. exact (canon_dims_ranks y k (proj1 Py) D Hk).
Qed.
Print Assumptions C37_canonicalize.
Theorem C37_two_sweeps (K : StarRing) (qr : nd K -> res (nd K * nd K)) (x y z : ltens K) :
  qr_sound qr -> mpa_pos x -> cform_ok x -> canon_dims x ->
  canonicalize qr x CAFull CANone = Ok y -> canonicalize qr y CANone CAFull = Ok z ->
  Forall2 le (ranks z) (full_rank (mshape x)) /\ to_array z = to_array x.
Proof. intros Hq Hx Hc Hd E1 E2. exact (proj2 (two_sweeps qr Hq x y z Hx (cform_ok_weak x Hc) Hd E1 E2)). Qed.
Print Assumptions C37_two_sweeps.
Theorem C37_fresh (K : StarRing) (x : ltens K) : canonical_form x = (0%Z, Z.of_nat (llen x)) -> canon_dims x.
Proof. unfold canonical_form. intros E. injection E as E1 E2. split; intros k H1 H2; lia. Qed.
Print Assumptions C37_fresh.
(** A rank-3 description of a product of two qubits is brought to rank 2. *)
Definition ex_big : ltens GZ := mkLt [mk [1;2;3] (map gi [1;0;0; 0;0;1]%Z); mk [3;2;1] (map gi [2;0; 0;0; 0;3]%Z)] 0 2.
Example C37_ex2 : mpa_pos ex_big /\ cform_ok ex_big /\ canon_dims ex_big /\
  let y := from_ok (canonicalize qr_gz ex_big CAFull CANone) no_mpa in let z := from_ok (canonicalize qr_gz y CANone CAFull) no_mpa in
  ranks ex_big = [3] /\ ranks z = [2] /\ to_array z = to_array ex_big.
Proof.
  split; [split; [apply mpa_okb_ok; reflexivity|repeat constructor; cbn; lia]|]. split; [apply cform_okb_ok; reflexivity|].
  split; [split; intros k H1 H2; cbn in *; lia|]. vms.
Qed.

(** ** C19: recorded forms that are passed on are true *)
Theorem C19_copy (K : StarRing) (x : ltens K) : mpa_ok x -> cform_ok x -> mpa_copy x = Ok x.
Proof. exact (mpa_copy_id x). Qed.
Print Assumptions C19_copy.
Theorem C19_passed_on (K : StarRing) (x z : ltens K) : mpa_ok x -> cform_ok x -> canon_true x ->
  (cform_lt x -> forall f, mmul x f = Ok z -> canon_true z) /\
  (forall f, mimul x f = Ok z -> canon_true z) /\
  (cform_lt x -> mneg x = Ok z -> canon_true z) /\
  (mconj x = Ok z -> canon_true z) /\
  (forall axes, (forall p, In p (mshape x) -> leg_perm_ok axes (length p)) -> mtranspose x axes = Ok z -> canon_true z) /\
  (mpa_copy x = Ok z -> canon_true z).
Proof.
  intros Hx Hc Ht. split; [|split; [|split; [|split; [|split]]]].
  - intros Hl f E. destruct (mmul_spec x f Hx Hc) as [z' [E' [_ [_ [_ [_ [T _]]]]]]]. rewrite E in E'. injection E' as <-. auto.
  - intros f E. destruct (mimul_spec x f Hx Hc) as [z' [E' [_ [_ [_ [_ [_ [T _]]]]]]]]. rewrite E in E'. injection E' as <-. auto.
  - intros Hl E. destruct (mneg_spec x Hx Hc) as [z' [E' [_ [_ [_ [_ [T _]]]]]]]. rewrite E in E'. injection E' as <-. auto.
  - intros E. destruct (mconj_spec x Hx Hc) as [z' [E' [_ [_ [_ [_ [T _]]]]]]]. rewrite E in E'. injection E' as <-. auto.
  - intros axes Ha E. destruct (mtranspose_spec x axes Hx Hc Ha) as [z' [E' [_ [_ [_ [_ [T _]]]]]]]. rewrite E in E'. injection E' as <-. auto.
  - intros E. rewrite (mpa_copy_id x Hx Hc) in E. injection E as <-. exact Ht.
Qed.
Print Assumptions C19_passed_on.
