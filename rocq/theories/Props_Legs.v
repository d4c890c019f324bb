(** Property theorems: operations on physical legs, sites and ranks. *)
From Verif Require Import PfReshapeErr Examples.

Ltac shape_rw := match goal with E : mshape ?z = _ |- valid_idx _ (mshape ?z) => rewrite E end.

(** C13: transpose, conj, adj.  [leg_perm axes n] is the new order of [n] legs. *)
Theorem C13_transpose (K : StarRing) (x : ltens K) axes :
  mpa_ok x -> cform_ok x -> (forall p, In p (mshape x) -> leg_perm_ok axes (length p)) ->
  exists z, mtranspose x axes = Ok z /\ mpa_ok z /\
    mshape z = map (fun p => gather (leg_perm axes (length p)) p) (mshape x) /\ ranks z = ranks x /\
    canonical_form z = canonical_form x /\ (canon_true x -> canon_true z) /\
    forall is, valid_idx is (mshape x) ->
      entry z (map (fun i => gather (leg_perm axes (length i)) i) is) = entry x is.
Proof.
  intros Hx Hc Ha. pose proof (mtranspose_spec x axes Hx Hc Ha) as H. split_all H. intros is Hi.
  rewrite !entry_amp; auto. shape_rw. apply valid_perm; assumption.
Qed.
Print Assumptions C13_transpose.
Theorem C13_conj (K : StarRing) (x : ltens K) : mpa_ok x -> cform_ok x ->
  exists z, mconj x = Ok z /\ mpa_ok z /\ mshape z = mshape x /\ ranks z = ranks x /\
    canonical_form z = canonical_form x /\ (canon_true x -> canon_true z) /\
    forall is, valid_idx is (mshape x) -> entry z is = kconj (entry x is).
Proof.
  intros Hx Hc. pose proof (mconj_spec x Hx Hc) as H. split_all H. intros is Hi.
  rewrite !entry_amp; auto. shape_rw. exact Hi.
Qed.
Print Assumptions C13_conj.
Theorem C13_adj (K : StarRing) (x : ltens K) : mpa_ok x ->
  exists z, madj x = Ok z /\ mpa_ok z /\ mshape z = map (@rev nat) (mshape x) /\ ranks z = ranks x /\
    canonical_form z = (0%Z, Z.of_nat (llen x)) /\
    forall is, valid_idx is (mshape x) -> entry z (map (@rev nat) is) = kconj (entry x is).
Proof.
  intros Hx. pose proof (madj_spec x Hx) as H. split_all H. intros is Hi.
  rewrite !entry_amp; auto. shape_rw. apply valid_map_rev; exact Hi.
Qed.
Print Assumptions C13_adj.
Example C13_ex : mpa_ok ex_o /\ leg_perm_ok (Some [1; 0]%Z) 2 /\
  entry ex_o [[0;1];[1;0];[1;1]] = g 8 4 /\ entry_of (mtranspose ex_o (Some [1; 0]%Z)) [[1;0];[0;1];[1;1]] = Some (g 8 4) /\
  entry_of (madj ex_o) [[1;0];[0;1];[1;1]] = Some (g 8 (-4)).
Proof.
  split; [apply ex_ok; cbn; auto|]. split; [|vm_compute; auto].
  cbn. apply Permutation.perm_swap.
Qed.

(** C14: sum over physical legs.  [als] lists the summed legs of every site. *)
Theorem C14_sum (K : StarRing) (x : ltens K) arg als :
  mpa_ok x -> sum_legs (mshape x) arg als -> Forall2 sel_ok als (mshape x) ->
  exists z, mpa_ok z /\
    msum_mpa x arg = Ok (if list_eq_dec Nat.eq_dec (concat (mshape z)) [] then SumScalar (to_array z) else SumMpa z) /\
    mshape z = zip2 rest_dims als (mshape x) /\ ranks z = ranks x /\ canonical_form z = (0%Z, Z.of_nat (llen x)) /\
    forall js, valid_idx js (mshape z) ->
      entry z js = msums (zip2 sel_dims als (mshape x)) (fun cs => entry x (zip4 merge_idx als (mshape x) js cs)).
Proof.
  intros Hx Ha Hs. pose proof (msum_spec x arg als Hx Ha Hs) as H. split_all H. intros js Hj.
  rewrite entry_amp by auto. rewrite H by exact Hj. apply msums_ext. intros cs Hcs. symmetry. apply entry_amp; [exact Hx|].
  apply merge_valid; auto. match goal with E : mshape z = _ |- _ => rewrite <- E end. exact Hj.
Qed.
Print Assumptions C14_sum.
(** The docstring allows one entry per site, each a tuple or None; None as the
    first entry is refused. *)
Theorem C14_none_first_refuted :
  exists (x : ltens GZ), mpa_ok x /\ llen x = 2 /\ msum_mpa x (SList [ENone; ESeq [0%Z]]) = Err TypeError.
Proof. exists ex_a. split; [apply ex_ok; cbn; auto|]. split; vm_compute; reflexivity. Qed.
Print Assumptions C14_none_first_refuted.
(** Unlike in numpy, a negative axis does not count from the last leg: it is
    shifted by one like a non-negative one, so that [-1] is the left bond, and the
    sum over the only leg of each site fails. *)
Theorem C14_negative_axis_refuted :
  exists (x : ltens GZ) a, mpa_ok x /\ mshape x = [[2];[3]] /\
    msum_mpa x (SOne 0%Z) = Ok (SumScalar a) /\ msum_mpa x (SOne (-1)%Z) = Err AssertionError.
Proof.
  exists ex_a, (mk [] [g 12 3]). split; [apply ex_ok; cbn; auto|]. split; [reflexivity|]. split; vm_compute; reflexivity.
Qed.
Print Assumptions C14_negative_axis_refuted.
Example C14_ex : sum_legs (mshape ex_o) (SOne 1%Z) [[1];[1];[1]] /\ Forall2 sel_ok [[1];[1];[1]] (mshape ex_o) /\
  match msum_mpa ex_o (SOne 1%Z) with Ok (SumMpa z) => entry z [[0];[1];[1]] = g 10 30 | _ => False end /\
  match msum_mpa ex_a SNone with Ok (SumScalar a) => get a [] = g 12 3 | _ => False end.
Proof.
  split; [exact (SL_one (mshape ex_o) 1)|]. split; [|vm_compute; auto].
  cbn. repeat (constructor; [split; [constructor; [cbn; tauto|constructor]|cbn; intuition lia]|]). constructor.
Qed.

(** C15: get, axis_iter, diag. *)
Theorem C15_get (K : StarRing) (x : ltens K) (idx : list Z) :
  mpa_ok x -> Forall2 (fun z p => match p with [] => False | d :: _ => (- Z.of_nat d <= z < Z.of_nat d)%Z end) idx (mshape x) ->
  exists z, mget x idx = Ok z /\ mpa_ok z /\ mshape z = map (@tl nat) (mshape x) /\ ranks z = ranks x /\
    forall js, valid_idx js (mshape z) ->
      entry z js = entry x (zip3 (fun z p j => norm_idx (hd 0 p) z :: j) idx (mshape x) js).
Proof.
  intros Hx Hi. pose proof (mget_spec x idx Hx Hi) as H. split_all H. intros js Hj. rewrite !entry_amp; auto.
  apply get_idx_valid; auto. match goal with E : mshape z = _ |- _ => rewrite <- E end. exact Hj.
Qed.
Print Assumptions C15_get.
Theorem C15_get_length_error (K : StarRing) (x : ltens K) idx : length idx <> llen x -> mget x idx = Err AssertionError.
Proof. exact (mget_length_error x idx). Qed.
Print Assumptions C15_get_length_error.
(** The slices come in row-major order of the selected indices: the last site varies fastest. *)
Theorem C15_axis_iter (K : StarRing) (x : ltens K) (axes : list nat) :
  mpa_ok x -> Forall2 (fun ax p => ax < length p) axes (mshape x) ->
  let ds := zip2 (fun ax p => nth ax p 0) axes (mshape x) in
  exists zs, axis_iter x axes = Ok zs /\ length zs = size ds /\
    forall ks, inr ks ds -> let z := nth (ravel ds ks) zs (mkLt [] 0 0) in
      mpa_ok z /\ mshape z = zip2 remove_at axes (mshape x) /\ ranks z = ranks x /\
      forall js, valid_idx js (mshape z) -> entry z js = entry x (zip3 insert_at axes ks js).
Proof.
  intros Hx Ha ds. destruct (axis_iter_spec x axes Hx Ha) as [zs [E [L H]]]. fold ds in H, L. exists zs. split; [exact E|]. split; [exact L|].
  intros ks Hk z. destruct (H ks Hk) as [H1 [H2 [H3 H4]]]. fold z in H1, H2, H3, H4. split; [exact H1|]. split; [exact H2|]. split; [exact H3|].
  intros js Hj. rewrite !entry_amp; auto. apply insert_valid; auto. rewrite <- H2. exact Hj.
Qed.
Print Assumptions C15_axis_iter.
(** The documented order (first site fastest) is not the one produced. *)
Theorem C15_axis_iter_order_refuted :
  exists (x : ltens GZ) zs, mpa_ok x /\ mshape x = [[2];[3]] /\ axis_iter x [0; 0] = Ok zs /\
    entry (nth 1 zs (mkLt [] 0 0)) [[];[]] <> entry x [[1];[0]].
Proof.
  exists ex_a, (from_ok (axis_iter ex_a [0; 0]) []). split; [apply ex_ok; cbn; auto|]. split; [reflexivity|].
  split; [vm_compute; reflexivity|]. vm_compute. discriminate.
Qed.
Print Assumptions C15_axis_iter_order_refuted.
Theorem C15_diag (K : StarRing) (x : ltens K) ax dim :
  mpa_ok x -> (forall p, In p (mshape x) -> ax < length p /\ nth ax p 0 = dim /\ length p = length (hd [] (mshape x))) ->
  exists zs, length zs = dim /\
    mdiag x (Z.of_nat ax) = Ok (if Nat.eqb (length (hd [] (mshape x))) 1 then DiagArr (map to_array zs) else DiagMpa zs) /\
    forall k, k < dim -> let z := nth k zs (mkLt [] 0 0) in
      mpa_ok z /\ mshape z = map (remove_at ax) (mshape x) /\
      forall js, valid_idx js (mshape z) -> entry z js = entry x (map (insert_at ax k) js).
Proof.
  intros Hx Ha. destruct (mdiag_spec x ax dim Hx Ha) as [zs [L [E H]]]. exists zs. split; [exact L|]. split; [exact E|].
  intros k Hk z. destruct (H k Hk) as [H1 [H2 H3]]. fold z in H1, H2, H3. split; [exact H1|]. split; [exact H2|].
  intros js Hj. rewrite !entry_amp; auto. apply insert_valid1; [|rewrite <- H2; exact Hj].
  intros p Hp. destruct (Ha p Hp) as [A1 [A2 _]]. rewrite A2. auto.
Qed.
Print Assumptions C15_diag.
Example C15_ex : entry_of (mget ex_o [0; -1; 1]%Z) [[1];[0];[1]] = Some (entry ex_o [[0;1];[1;0];[1;1]]) /\
  entry ex_o [[0;1];[1;0];[1;1]] = g 8 4 /\
  map (fun z => entry z [[];[]]) (from_ok (axis_iter ex_a [0; 0]) []) = dat (to_array ex_a) /\
  mdiag ex_s 0 = Ok (DiagArr [mk [] [entry ex_s [[0];[0];[0]]]; mk [] [entry ex_s [[1];[1];[1]]]]).
Proof. vms. Qed.

(** C16: reshape and ravel, site by site in row-major order; [reshape_shapes] and
    [site_reshape_ok] resolve a -1 entry as numpy does. *)
Theorem C16_reshape (K : StarRing) (x : ltens K) arg qs :
  mpa_ok x -> cform_ok x -> reshape_nonempty arg ->
  Forall3 site_reshape_ok (lts x) (reshape_shapes x arg) qs ->
  exists z, mreshape x arg = Ok z /\ mpa_ok z /\ mshape z = qs /\ ranks z = ranks x /\
    canonical_form z = canonical_form x /\ (canon_true x -> canon_true z) /\
    forall is js, valid_idx is (mshape x) -> valid_idx js qs ->
      zip2 ravel qs js = zip2 ravel (mshape x) is -> entry z js = entry x is.
Proof.
  intros Hx Hc Hn HF. pose proof (mreshape_spec x arg qs Hx Hc Hn HF) as H. split_all H. intros is js Hi Hj E.
  rewrite !entry_amp; auto. shape_rw. exact Hj.
Qed.
Print Assumptions C16_reshape.
Theorem C16_ravel (K : StarRing) (x : ltens K) : mpa_ok x -> cform_ok x -> bonds_pos x ->
  exists z, mravel x = Ok z /\ mpa_ok z /\ mshape z = map (fun p => [size p]) (mshape x) /\ ranks z = ranks x /\
    canonical_form z = canonical_form x /\ (canon_true x -> canon_true z) /\
    (forall is, valid_idx is (mshape x) -> entry z (zip2 (fun p i => [ravel p i]) (mshape x) is) = entry x is) /\
    mreshape z (RList (map (map Z.of_nat) (mshape x))) = Ok x.
Proof.
  intros Hx Hc Hp. pose proof (mravel_spec x Hx Hc Hp) as H. destruct H as [z [E [Hz [Es [Er [Ec [Et [H R]]]]]]]].
  exists z. repeat (split; [assumption|]). split; [|exact R]. intros is Hi. rewrite !entry_amp; auto. shape_rw. apply valid_ravel; exact Hi.
Qed.
Print Assumptions C16_ravel.
(** Refused shapes: with a shape for each site and positive bonds either every site admits a
    resolved shape, which is [C16_reshape], or ValueError is raised. *)
Theorem C16_reshape_error (K : StarRing) (x : ltens K) arg :
  mpa_ok x -> bonds_pos x -> reshape_nonempty arg ->
  (exists t sh, In (t, sh) (combine (lts x) (reshape_shapes x arg)) /\ forall q, ~ site_reshape_ok t sh q) ->
  mreshape x arg = Err ValueError.
Proof. exact (mreshape_err x arg). Qed.
Print Assumptions C16_reshape_error.
Theorem C16_reshape_cases (K : StarRing) (x : ltens K) arg :
  mpa_ok x -> bonds_pos x -> length (reshape_shapes x arg) = llen x ->
  (exists qs, Forall3 site_reshape_ok (lts x) (reshape_shapes x arg) qs) \/
  (exists t sh, In (t, sh) (combine (lts x) (reshape_shapes x arg)) /\ forall q, ~ site_reshape_ok t sh q).
Proof. exact (mreshape_total x arg). Qed.
Print Assumptions C16_reshape_cases.
Theorem C16_reshape_empty (K : StarRing) (x : ltens K) : mreshape x (ROne []) = Err IndexError /\ mreshape x (RList []) = Err IndexError.
Proof. exact (mreshape_empty x). Qed.
Print Assumptions C16_reshape_empty.
(** Lists of the wrong length: surplus shapes are ignored, missing ones are noticed only if the
    canonical form reaches beyond the end of the list. *)
Theorem C16_reshape_surplus (K : StarRing) (x : ltens K) shs more :
  shs <> [] -> length shs = llen x -> mreshape x (RList (shs ++ more)) = mreshape x (RList shs).
Proof. exact (mreshape_surplus x shs more). Qed.
Print Assumptions C16_reshape_surplus.
Theorem C16_reshape_short (K : StarRing) (x : ltens K) shs qs :
  mpa_ok x -> shs <> [] -> length shs < llen x -> Forall3 site_reshape_ok (firstn (length shs) (lts x)) shs qs ->
  (Z.of_nat (length shs) < rcan x)%Z -> mreshape x (RList shs) = Err AssertionError.
Proof. exact (mreshape_short x shs qs). Qed.
Print Assumptions C16_reshape_short.
(** |000>, right-canonical: two shapes for three sites give a chain of two sites. *)
Definition short_x : ltens GZ := mkLt [mk [1;2;1] [gi 1; gi 0]; mk [1;2;1] [gi 1; gi 0]; mk [1;2;1] [gi 1; gi 0]] 0 1.
Theorem C16_reshape_short_refuted : exists (x : ltens GZ) shs z,
  mpa_ok x /\ canon_true x /\ length shs < llen x /\ mreshape x (RList shs) = Ok z /\ llen z <> llen x.
Proof.
  exists short_x, [[2]; [2]]%Z, (from_ok (mreshape short_x (RList [[2]; [2]]%Z)) short_x).
  split; [split; [discriminate|apply bondsb_iff; reflexivity]|]. split; [apply canon_trueb_ok; vm_compute; reflexivity|].
  split; [cbn; lia|]. split; [vmc|]. intros E. vm_compute in E. discriminate.
Qed.
Print Assumptions C16_reshape_short_refuted.
Example C16_error_ex : (exists t sh, In (t, sh) (combine (lts ex_o) (reshape_shapes ex_o (RList [[4]; [3]; [2; 2]]%Z))) /\ forall q, ~ site_reshape_ok t sh q) /\
  mreshape ex_o (RList [[4]; [3]; [2; 2]]%Z) = Err ValueError.
Proof.
  split; [|reflexivity]. eexists _, _. split; [right; left; reflexivity|]. intros q (Hs & Hr & _). 
  inversion Hr as [q' E|q1 d q2 _ _ E]; subst; cycle 1. { destruct q1 as [|? [|? ?]]; discriminate. }
  destruct q as [|a [|b q]]; try discriminate. cbn in E. injection E as E. change (size (pdims _)) with 4 in Hs. rewrite size_single in Hs. lia.
Qed.
Example C16_ex : Forall3 site_reshape_ok (lts ex_o) (reshape_shapes ex_o (RList [[4]; [-1; 1]; [2; -1]]%Z)) [[4]; [4; 1]; [2; 2]] /\
  entry_of (mreshape ex_o (RList [[4]; [-1; 1]; [2; -1]]%Z)) [[1];[2;0];[1;1]] = Some (entry ex_o [[0;1];[1;0];[1;1]]).
Proof.
  split; [|vm_compute; reflexivity].
  constructor; [split; [reflexivity|]; split; [exact (RT_all [4])|right; cbn; lia]|].
  constructor; [split; [reflexivity|]; split; [apply (RT_one [] 4 [1]); unfold size; cbn; lia|right; cbn; lia]|].
  constructor; [split; [reflexivity|]; split; [apply (RT_one [2] 2 []); unfold size; cbn; lia|right; cbn; lia]|constructor].
Qed.

(** C17: merging sites does not change the array. *)
Theorem C17_group_sites (K : StarRing) (x : ltens K) n gs : mpa_ok x -> 0 < n ->
  concat gs = mshape x -> Forall (fun g => length g = n) gs ->
  exists z, group_sites x n = Ok z /\ mpa_ok z /\ mshape z = map (@concat nat) gs /\ to_array z = to_array x.
Proof. exact (group_sites_spec x n gs). Qed.
Print Assumptions C17_group_sites.
Theorem C17_group_sites_error (K : StarRing) (x : ltens K) n : 0 < n -> llen x mod n <> 0 -> group_sites x n = Err ValueError.
Proof. exact (group_sites_error x n). Qed.
Print Assumptions C17_group_sites_error.
Example C17_ex : let z := from_ok (group_sites ex_o 3) no_mpa in mshape z = [[2;2;2;2;2;2]] /\ to_array z = to_array ex_o.
Proof. vms. Qed.

(** C18: vleg2leg and leg2vleg at bond [p]. *)
Theorem C18_vleg2leg (K : StarRing) (x : ltens K) p x1 t u x2 : mpa_ok x -> cform_ok x ->
  lts x = x1 ++ t :: u :: x2 -> length x1 = p ->
  exists z, vleg2leg x (Z.of_nat p) = Ok z /\ mpa_ok z /\ cform_ok z /\
    lts z = x1 ++ newaxis_last t :: newaxis_first u :: x2 /\
    mshape z = map pdims x1 ++ (pdims t ++ [rdim t]) :: (rdim t :: pdims u) :: map pdims x2 /\
    ranks z = firstn p (ranks x) ++ 1 :: skipn (S p) (ranks x) /\
    canonical_form z = (Z.min (lcan x) (Z.of_nat p), Z.max (rcan x) (Z.of_nat p + 2))%Z /\
    (canon_true x -> canon_true z) /\
    (forall i1 i j i2, valid_idx i1 (map pdims x1) -> inr i (pdims t) -> inr j (pdims u) -> valid_idx i2 (map pdims x2) ->
       bigsum (rdim t) (fun c => entry z (i1 ++ (i ++ [c]) :: (c :: j) :: i2)) = entry x (i1 ++ i :: j :: i2)).
Proof.
  intros Hx Hc E1 E2. destruct (vleg2leg_spec x p x1 t u x2 Hx Hc E1 E2) as [z [E [Hz [Hc' [El [Es [Er [Ec [Et [H1 H2]]]]]]]]]].
  exists z. repeat (split; [assumption|]). intros i1 i j i2 Hi1 Hi Hj Hi2.
  rewrite entry_amp; [|exact Hx|].
  - rewrite <- H2 by assumption. apply bigsum_ext. intros c Hcc. rewrite entry_amp; [|exact Hz|].
    + apply H1; assumption.
    + rewrite Es. apply Forall2_app; [exact Hi1|]. constructor; [apply inr_app; [exact Hi|apply inr_single; exact Hcc]|].
      constructor; [apply inr_cons; assumption|exact Hi2].
  - unfold mshape. rewrite E1, map_app. cbn [map]. apply Forall2_app; [exact Hi1|]. repeat (constructor; auto).
Qed.
Print Assumptions C18_vleg2leg.
Theorem C18_leg2vleg (K : StarRing) (x : ltens K) p x1 t u x2 pt pu d : mpa_ok x -> cform_ok x ->
  lts x = x1 ++ t :: u :: x2 -> length x1 = p -> rdim t = 1 -> pdims t = pt ++ [d] -> pdims u = d :: pu ->
  exists z, leg2vleg x (Z.of_nat p) = Ok z /\ mpa_ok z /\ cform_ok z /\
    mshape z = map pdims x1 ++ pt :: pu :: map pdims x2 /\
    canonical_form z = (Z.min (lcan x) (Z.of_nat p), Z.max (rcan x) (Z.of_nat p + 1))%Z /\
    (canon_true x -> (Z.of_nat p + 2 <= rcan x)%Z -> canon_true z) /\
    (forall i1 i j i2, valid_idx i1 (map pdims x1) -> inr i pt -> inr j pu -> valid_idx i2 (map pdims x2) ->
       entry z (i1 ++ i :: j :: i2) = bigsum d (fun c => entry x (i1 ++ (i ++ [c]) :: (c :: j) :: i2))).
Proof.
  intros Hx Hc E1 E2 Er Ept Epu. destruct (leg2vleg_spec x p x1 t u x2 pt pu d Hx Hc E1 E2 Er Ept Epu) as [z [E [Hz [Hc' [El [Es [Ec [Et H]]]]]]]].
  exists z. repeat (split; [assumption|]). intros i1 i j i2 Hi1 Hi Hj Hi2. rewrite entry_amp; [|exact Hz|].
  - rewrite H by assumption. apply bigsum_ext. intros c Hcc. symmetry. apply entry_amp; [exact Hx|].
    unfold mshape. rewrite E1, map_app. cbn [map]. rewrite Ept, Epu. apply Forall2_app; [exact Hi1|].
    constructor; [apply inr_app; [exact Hi|apply inr_single; exact Hcc]|]. constructor; [apply inr_cons; assumption|exact Hi2].
  - rewrite Es. apply Forall2_app; [exact Hi1|]. repeat (constructor; auto).
Qed.
Print Assumptions C18_leg2vleg.
Theorem C18_leg2vleg_vleg2leg (K : StarRing) (x y : ltens K) p : mpa_ok x -> cform_ok x -> S p < llen x -> vleg2leg x (Z.of_nat p) = Ok y ->
  exists z, leg2vleg y (Z.of_nat p) = Ok z /\ lts z = lts x /\
    canonical_form z = (Z.min (lcan x) (Z.of_nat p), Z.max (rcan x) (Z.of_nat p + 2))%Z /\ (canon_true x -> canon_true z).
Proof. exact (leg2vleg_vleg2leg x y p). Qed.
Print Assumptions C18_leg2vleg_vleg2leg.
(** Out-of-range bonds are refused. *)
Theorem C18_vleg2leg_last_error (K : StarRing) (x : ltens K) : lts x <> [] -> vleg2leg x (Z.of_nat (llen x) - 1) = Err IndexError.
Proof. exact (vleg2leg_last_error x). Qed.
Print Assumptions C18_vleg2leg_last_error.
Theorem C18_vleg2leg_negative (K : StarRing) (x : ltens K) pos : (pos < 0)%Z -> cform_ok x -> exists e, vleg2leg x pos = Err e.
Proof. exact (vleg2leg_negative x pos). Qed.
Print Assumptions C18_vleg2leg_negative.
(** When site [p + 1] is recorded as right-canonical, leg2vleg keeps that record
    although the site has lost its first leg: a true form becomes false. *)
Theorem C19_leg2vleg_form_refuted :
  exists (x z : ltens GZ), mpa_ok x /\ cform_ok x /\ cform_lt x /\ canon_true x /\
    leg2vleg x 0 = Ok z /\ canonical_form z = (0, 1)%Z /\ ~ canon_true z.
Proof.
  pose (t := mk [1;1;2;1] [g 1 0; g 0 0]). pose (u := mk [1;2;1;1] [g 1 0; g 0 0]).
  exists (mkLt [t; u] 0 1), (mkLt [mk [1;1;2] [g 1 0; g 0 0]; mk [2;1;1] [g 1 0; g 0 0]] 0 1).
  split; [apply mpa_okb_ok; reflexivity|]. split; [apply cform_okb_ok; reflexivity|]. split; [unfold cform_lt; cbn; lia|].
  split; [apply canon_trueb_ok; vm_compute; reflexivity|]. split; [vm_compute; reflexivity|]. split; [reflexivity|].
  intros [_ H]. specialize (H 1 ltac:(cbn; lia) ltac:(cbn; lia) 1 1 ltac:(vm_compute; lia) ltac:(vm_compute; lia)). vm_compute in H. discriminate.
Qed.
Print Assumptions C19_leg2vleg_form_refuted.
Example C18_ex : let y := from_ok (vleg2leg ex_c 0) no_mpa in
  ranks y = [1; 2] /\ mshape y = [[2;2];[2;2];[2]] /\ lts (from_ok (leg2vleg y 0) no_mpa) = lts ex_c.
Proof. vms. Qed.

(** C20: split and reverse. *)
Theorem C20_split (K : StarRing) (x : ltens K) p x1 t u x2 : mpa_ok x -> cform_ok x ->
  lts x = x1 ++ t :: u :: x2 -> length x1 = p ->
  exists za zb, msplit x (Z.of_nat p) = Ok (Some za, Some zb) /\ mpa_ok za /\ mpa_ok zb /\
    mshape za = map pdims x1 ++ [pdims t ++ [rdim t]] /\ mshape zb = (rdim t :: pdims u) :: map pdims x2 /\
    cform_ok za /\ cform_ok zb /\ (canon_true x -> canon_true za /\ canon_true zb) /\
    (forall i1 i j i2, valid_idx i1 (map pdims x1) -> inr i (pdims t) -> inr j (pdims u) -> valid_idx i2 (map pdims x2) ->
       entry x (i1 ++ i :: j :: i2) =
       bigsum (rdim t) (fun c => entry za (i1 ++ [i ++ [c]]) * entry zb ((c :: j) :: i2))%K).
Proof.
  intros Hx Hc E1 E2. destruct (msplit_spec x p x1 t u x2 Hx Hc E1 E2) as [za [zb [E [Ha [Hb [Sa [Sb [Ca [Cb [Ct H]]]]]]]]]].
  exists za, zb. repeat (split; [assumption|]). intros i1 i j i2 Hi1 Hi Hj Hi2. rewrite entry_amp; [|exact Hx|].
  - rewrite H by assumption. apply bigsum_ext. intros c Hcc. rewrite !entry_amp; auto.
    + rewrite Sb. constructor; [apply inr_cons; assumption|exact Hi2].
    + rewrite Sa. apply Forall2_app; [exact Hi1|]. constructor; [|constructor]. apply inr_app; [exact Hi|apply inr_single; exact Hcc].
  - unfold mshape. rewrite E1, map_app. cbn [map]. apply Forall2_app; [exact Hi1|]. repeat (constructor; auto).
Qed.
Print Assumptions C20_split.
Theorem C20_split_outside (K : StarRing) (x : ltens K) pos :
  ((pos < 0)%Z -> msplit x pos = Ok (None, Some x)) /\
  ((Z.of_nat (llen x) <= pos)%Z -> msplit x pos = Ok (Some x, None)).
Proof. exact (msplit_outside x pos). Qed.
Print Assumptions C20_split_outside.
(** "Terminates without error for every position" is false: the last site raises. *)
Theorem C20_split_last_refuted (K : StarRing) (x : ltens K) : lts x <> [] -> msplit x (Z.of_nat (llen x) - 1) = Err IndexError.
Proof. exact (msplit_last_error x). Qed.
Print Assumptions C20_split_last_refuted.
Theorem C20_reverse (K : StarRing) (x : ltens K) : mpa_ok x ->
  exists z, mreverse x = Ok z /\ mpa_ok z /\ mshape z = rev (mshape x) /\ ranks z = rev (ranks x) /\
    canonical_form z = (0%Z, Z.of_nat (llen x)) /\
    forall is, valid_idx is (mshape x) -> entry z (rev is) = entry x is.
Proof.
  intros Hx. pose proof (mreverse_spec x Hx) as H. split_all H. intros is Hi. rewrite !entry_amp; auto. shape_rw. apply valid_rev; exact Hi.
Qed.
Print Assumptions C20_reverse.
Example C20_ex : entry_of (mreverse ex_a) [[2];[1]] = Some (g 9 4) /\
  let '(za, zb) := from_ok (msplit ex_c 1) (None, None) in
  option_map mshape za = Some [[2];[2;2]] /\ option_map mshape zb = Some [[2;2]].
Proof. split; [vmc|]. vm_compute. auto. Qed.

(** C30: pad_ranks. *)
Theorem C30_pad_ranks (K : StarRing) (x : ltens K) rank force rk : mpa_ok x ->
  (rank = Some rk \/ (rank = None /\ ranks x <> [] /\ rk = fold_right Nat.max 0 (ranks x))) ->
  exists z, pad_ranks x rank force = Ok z /\ mpa_ok z /\ mshape z = mshape x /\
    ranks z = zip2 Nat.max (ranks x) (if force then map (fun _ => rk) (ranks x) else map (fun f => Nat.min f rk) (full_rank (mshape x))) /\
    to_array z = to_array x.
Proof. exact (pad_ranks_spec x rank force rk). Qed.
Print Assumptions C30_pad_ranks.
(** Without an explicit rank a one-site array is refused ([max] of no ranks). *)
Theorem C30_pad_ranks_error (K : StarRing) (x : ltens K) force : ranks x = [] -> pad_ranks x None force = Err ValueError.
Proof. exact (pad_ranks_error x force). Qed.
Print Assumptions C30_pad_ranks_error.
Example C30_ex : ranks_of (pad_ranks ex_a (Some 4) true) = Some [4] /\ ranks_of (pad_ranks ex_a (Some 4) false) = Some [2] /\
  to_array (from_ok (pad_ranks ex_a (Some 4) true) no_mpa) = to_array ex_a.
Proof. vms. Qed.

(** C32: prune.  [pruned] removes the leg-less sites (keeping one if all are). *)
Theorem C32_prune (K : StarRing) (x : ltens K) : mpa_ok x ->
  exists z, prune x false = Ok z /\ mpa_ok z /\ mshape z = pruned (mshape x) /\
    canonical_form z = (0%Z, Z.of_nat (llen z)) /\ to_array z = to_array x.
Proof. exact (prune_plain_spec x). Qed.
Print Assumptions C32_prune.
Theorem C32_prune_singletons (K : StarRing) (x : ltens K) : mpa_ok x -> cform_ok x ->
  exists z, prune x true = Ok z /\ mpa_ok z /\ mshape z = pruned (map drop1 (mshape x)) /\
    forall is, valid_idx is (mshape x) ->
      get (to_array z) (concat (zip2 drop1_idx (mshape x) is)) = entry x is.
Proof. exact (prune_single_spec x). Qed.
Print Assumptions C32_prune_singletons.
Theorem C32_pruned_meaning (ps : list (list nat)) : ps <> [] ->
  pruned ps <> [] /\ ((exists p, In p ps /\ p <> []) -> pruned ps = filter has_legs ps) /\ ((forall p, In p ps -> p = []) -> pruned ps = [[]]).
Proof.
  intros H. unfold pruned. destruct (filter has_legs ps) as [|q qs] eqn:E.
  - split; [discriminate|]. split; [|reflexivity]. intros [p [Hp Hn]]. exfalso.
    assert (In p (filter has_legs ps)) as F by (apply filter_In; split; [exact Hp|destruct p; [congruence|reflexivity]]). rewrite E in F. exact F.
  - split; [discriminate|]. split; [reflexivity|]. intros A. exfalso.
    assert (In q (filter has_legs ps)) as F by (rewrite E; left; reflexivity). apply filter_In in F. destruct F as [F1 F2]. rewrite (A q F1) in F2. discriminate.
Qed.
Print Assumptions C32_pruned_meaning.
Definition ex_p : ltens GZ :=
  mkLt [mk [1;2] [g 1 0; g 2 0]; mk [2;2;2] [g 1 0; g 0 0; g 0 2; g 1 0; g 0 0; g 3 0; g 1 0; g 0 (-1)]; mk [2;1;2] [g 1 1; g 0 0; g 2 0; g 1 0]; mk [2;1] [g 0 1; g 1 1]] 0 4.
Example C32_ex : mpa_ok ex_p /\ cform_ok ex_p /\
  (let z := from_ok (prune ex_p false) no_mpa in mshape z = [[2];[1]] /\ to_array z = to_array ex_p) /\
  (let z := from_ok (prune ex_p true) no_mpa in mshape z = [[2]] /\ dat (to_array z) = dat (to_array ex_p)).
Proof. split; [apply mpa_okb_ok; reflexivity|]. split; [apply cform_okb_ok; reflexivity|]. vms. Qed.

(** C33: partialtrace and trace.  [qs]: the traced pair of legs of every site. *)
Lemma tr_idx_inr q p i c : tr_ok q p -> inr i (tr_rest q p) -> inr c (tr_dims q p) -> inr (tr_idx q p i c) p.
Proof.
  destruct q as [[a b]|]; [|intros _ H _; exact H]. intros [Ha [Hb Hn]] Hi Hc. cbn [tr_idx tr_rest tr_dims] in *.
  apply merge_idx_inr; [split; [repeat constructor; cbn; intuition|cbn; intuition (subst; auto)]|exact Hi|].
  inversion Hc as [|c0 d cs ds Hc0 Hcs]; subst. inversion Hcs; subst. unfold sel_dims, gather. cbn [map app]. repeat constructor; lia.
Qed.
Lemma tr_idx_valid axs ps js cs : Forall2 tr_arg_ok axs ps ->
  let qs := zip2 (fun ax p => tr_arg (length p) ax) axs ps in
  valid_idx js (zip2 tr_rest qs ps) -> Forall2 inr cs (zip2 tr_dims qs ps) -> valid_idx (zip4 tr_idx qs ps js cs) ps.
Proof.
  intros Ha qs Hj Hcs.
  assert (Hq : Forall2 tr_ok qs ps).
  { subst qs. clear -Ha. induction Ha as [|ax p axs ps H HF IH]; cbn [zip2]; constructor; [|exact IH].
    destruct ax as [[a b]|]; [|exact I]. destruct H as [H1 [H2 H3]]. cbn [tr_arg].
    destruct (proj1 (pyidx_range _ _) H1) as [k Ek]. destruct (proj1 (pyidx_range _ _) H2) as [l El]. rewrite Ek, El in *.
    pose proof (pyidx_lt _ _ _ Ek). pose proof (pyidx_lt _ _ _ El). cbn. split; [|split]; auto; congruence. }
  clearbody qs. clear -Hq Hj Hcs. revert js cs Hj Hcs. induction Hq as [|q p qs ps H HF IH]; intros js cs Hj Hcs; cbn [zip2] in *.
  - constructor.
  - inversion Hj; inversion Hcs; subst. cbn [zip4]. constructor; [apply tr_idx_inr; assumption|apply IH; assumption].
Qed.
Theorem C33_partialtrace (K : StarRing) (x : ltens K) arg :
  mpa_ok x -> Forall2 tr_arg_ok (pt_axes x arg) (mshape x) ->
  let qs := zip2 (fun ax p => tr_arg (length p) ax) (pt_axes x arg) (mshape x) in
  let rest := zip2 tr_rest qs (mshape x) in
  exists z, partialtrace x arg = Ok z /\ mpa_ok z /\ mshape z = pruned rest /\
    canonical_form z = (0%Z, Z.of_nat (llen z)) /\
    forall js, valid_idx js rest ->
      get (to_array z) (concat js) =
      msums (zip2 tr_dims qs (mshape x)) (fun cs => entry x (zip4 tr_idx qs (mshape x) js cs)).
Proof.
  intros Hx Ha qs rest. destruct (partialtrace_spec x arg Hx Ha) as [z [E1 [E2 [E3 [E4 H]]]]]. fold qs in E3, H. fold rest in E3, H.
  exists z. repeat (split; [assumption|]). intros js Hj. rewrite H by exact Hj.
  apply msums_ext. intros cs Hcs. symmetry. apply entry_amp; [exact Hx|]. subst rest. fold qs in Hcs.
  apply tr_idx_valid; assumption.
Qed.
Print Assumptions C33_partialtrace.
Theorem C33_trace (K : StarRing) (x : ltens K) arg :
  mpa_ok x -> Forall2 tr_arg_ok (pt_axes x arg) (mshape x) ->
  let qs := zip2 (fun ax p => tr_arg (length p) ax) (pt_axes x arg) (mshape x) in
  Forall (fun p => p = []) (zip2 tr_rest qs (mshape x)) ->
  mtrace x arg = Ok (msums (zip2 tr_dims qs (mshape x))
                       (fun cs => entry x (zip4 tr_idx qs (mshape x) (map (fun _ => []) (mshape x)) cs))).
Proof.
  intros Hx Ha qs He. rewrite (mtrace_spec x arg Hx Ha He). f_equal. apply msums_ext. intros cs Hcs. symmetry.
  apply entry_amp; [exact Hx|]. apply tr_idx_valid; [exact Ha| |exact Hcs].
  assert (L : length (zip2 tr_rest qs (mshape x)) = length (mshape x)).
  { assert (Lq : length qs = length (mshape x)) by (unfold qs; rewrite zip2_length; apply (Forall2_len _ _ _ _ _ Ha)).
    rewrite zip2_length by exact Lq. exact Lq. }
  fold qs. remember (zip2 tr_rest qs (mshape x)) as r eqn:Er. clear Er. revert r He L. generalize (mshape x) as ps. clear. unfold valid_idx.
  induction ps as [|p ps IH]; intros [|q r] H L; try discriminate; [constructor|]. inversion H; subst. cbn [map]. constructor; [constructor|].
  apply IH; [assumption|cbn in L; lia].
Qed.
Print Assumptions C33_trace.
Example C33_ex : Forall2 tr_arg_ok (pt_axes ex_o (PTAll 0 1)) (mshape ex_o) /\ Forall2 tr_arg_ok (pt_axes ex_o (PTSites [None; Some (0, 1); None]%Z)) (mshape ex_o) /\
  mtrace ex_o (PTAll 0 1) = Ok (g 32 17) /\
  let z := from_ok (partialtrace ex_o (PTSites [None; Some (0, 1); None]%Z)) no_mpa in
  mshape z = [[2;2];[2;2]] /\
  get (to_array z) [0;1;1;0] = kadd (get (to_array ex_o) [0;1;0;0;1;0]) (get (to_array ex_o) [0;1;1;1;1;0]).
Proof.
  assert (A : forall q : Z * Z, q = (0, 1)%Z -> tr_arg_ok (Some q) [2; 2]) by (intros q ->; repeat split; cbn; lia || discriminate).
  split; [cbn; repeat (constructor; [apply A; reflexivity|]); constructor|]. split; [|vms].
  constructor; [exact I|]. constructor; [apply A; reflexivity|]. constructor; [exact I|constructor].
Qed.
