(** Property theorems: arrays with named axes (_named_ndarray.py), matrix elements
    ([sandwich]), [eig], [eig_sum] and variational compression.

    [pairs is js] is the index of an MPO with row indices [is] and column indices
    [js], [singles is] the index of an MPS. *)
From Coq Require Import String.
From Verif Require Import Oracles PfSand PfEig3 PfVar4 PfHistory PfEigErr.
Open Scope string_scope.
Open Scope list_scope.

(** ** C11: sandwich.  [melem ds es M u t] is [sum_{i,j} conj (u i) M(i,j) t(j)]. *)
Theorem C11_sandwich (K : StarRing) (w x y : ltens K) ds es :
  mpa_ok w -> mpa_ok x -> mpa_ok y -> mshape w = pairs ds es -> List.length ds = List.length es ->
  mshape x = singles es -> mshape y = singles ds ->
  sandwich w x (Some y) =
  Ok (msum ds (fun is => msum es (fun js =>
        kconj (entry y (singles is)) * entry w (pairs is js) * entry x (singles js))))%K.
Proof. exact (sandwich_spec w x y ds es). Qed.
Print Assumptions C11_sandwich.
Theorem C11_sandwich_default (K : StarRing) (w x : ltens K) ds :
  mpa_ok w -> mpa_ok x -> mshape w = pairs ds ds -> mshape x = singles ds ->
  sandwich w x None =
  Ok (msum ds (fun is => msum ds (fun js =>
        kconj (entry x (singles is)) * entry w (pairs is js) * entry x (singles js))))%K.
Proof. intros Hw Hx Sw Sx. exact (sandwich_spec w x x ds ds Hw Hx Hx Sw eq_refl Sx Sx). Qed.
Print Assumptions C11_sandwich_default.
Theorem C11_sandwich_inner (K : StarRing) (w x y : ltens K) ds es :
  mpa_ok w -> mpa_ok x -> mpa_ok y -> bonds_pos w -> bonds_pos x -> bonds_pos y ->
  mshape w = pairs ds es -> List.length ds = List.length es -> mshape x = singles es -> mshape y = singles ds ->
  exists z a, mdot w x (AInt (-1) 0) = Ok z /\ minner y z = Ok a /\ sandwich w x (Some y) = Ok (get a []).
Proof. exact (sandwich_inner w x y ds es). Qed.
Print Assumptions C11_sandwich_inner.
(** A rectangular operator: three rows, two columns. *)
Definition ex_w : ltens GZ :=
  mkLt [mk [1;3;2;2] [g 1 0; g 0 1; g 2 1; g 0 0; g 0 0; g 1 1; g 3 0; g 1 (-1); g 0 2; g 1 1; g 5 0; g 1 0];
        mk [2;2;3;1] [g 1 0; g 0 0; g 0 1; g 1 0; g 2 0; g 0 0; g 1 1; g 0 0; g 0 (-1); g 1 0; g 0 0; g 0 0]] 0 2.
Definition ex_y : ltens GZ :=
  mkLt [mk [1;3;1] [g 1 0; g 0 2; g 1 (-1)]; mk [1;2;1] [g 3 1; g 0 (-1)]] 0 2.
Example C11_ex : mpa_ok ex_w /\ mpa_ok ex_a /\ mpa_ok ex_y /\
  mshape ex_w = pairs [3; 2] [2; 3] /\ mshape ex_a = singles [2; 3] /\ mshape ex_y = singles [3; 2] /\
  sandwich ex_w ex_a (Some ex_y) = Ok (g (-131) 113).
Proof. repeat (split; [first [apply mpa_okb_ok; vmc | apply ex_ok; cbn; auto | vmc]|]). vmc. Qed.
(** The chains are not checked for equal length: with three operator sites and two
    state sites the last operator is ignored. *)
Definition ex_w3 : ltens GZ := mkLt (lts ex_w ++ [mk [1;2;2;1] [g 7 0; g 0 0; g 0 0; g 7 0]]) 0 3.
Theorem C11_length_refuted :
  mpa_ok ex_w3 /\ mpa_ok ex_a /\ mpa_ok ex_y /\ llen ex_w3 = 3 /\ llen ex_a = 2 /\
  sandwich ex_w3 ex_a (Some ex_y) = sandwich ex_w ex_a (Some ex_y).
Proof. repeat (split; [first [apply mpa_okb_ok; vmc | apply ex_ok; cbn; auto | vmc]|]). vmc. Qed.
Print Assumptions C11_length_refuted.

(** ** C44: named axes.  [nget x v] is the entry of [x] whose index along the axis
    named [s] is [v s]; [in_range v x]: these indices are valid; [ndimof x s] is the
    length of the axis; [assign v ns c] is [v] with the names [ns] set to [c]. *)
Theorem C44_new (K : StarRing) (a : nd K) names :
  (List.length names = ndim a -> NoDup names -> named_new a names = Ok (mkNamed a names)) /\
  (List.length names <> ndim a \/ ~ NoDup names -> named_new a names = Err AssertionError).
Proof. split; [apply named_new_spec|apply named_new_error]. Qed.
Print Assumptions C44_new.
(** [renamed tr s]: the new name of [s]; all renamings act on the old names. *)
Theorem C44_rename (K : StarRing) (x : named K) tr :
  named_ok x -> incl (map fst tr) (nnames x) -> NoDup (map (renamed tr) (nnames x)) ->
  exists z, nrename x tr = Ok z /\ named_ok z /\ nnames z = map (renamed tr) (nnames x) /\
    narr z = narr x /\ forall v, nget z v = nget x (fun s => v (renamed tr s)).
Proof. exact (nrename_spec x tr). Qed.
Print Assumptions C44_rename.
Theorem C44_renamed (tr : list (string * string)) s :
  (forall t, NoDup (map fst tr) -> In (s, t) tr -> renamed tr s = t) /\
  (~ In s (map fst tr) -> renamed tr s = s).
Proof. split; [intros t; apply renamed_in|apply renamed_notin]. Qed.
Print Assumptions C44_renamed.
Theorem C44_rename_error (K : StarRing) (x : named K) tr :
  (~ incl (map fst tr) (nnames x) -> nrename x tr = Err ValueError) /\
  (named_ok x -> incl (map fst tr) (nnames x) -> ~ NoDup (map (renamed tr) (nnames x)) ->
     nrename x tr = Err AssertionError).
Proof. split; [apply nrename_unknown|apply nrename_clash]. Qed.
Print Assumptions C44_rename_error.
Theorem C44_conj (K : StarRing) (x : named K) : named_ok x ->
  exists z, named_conj x = Ok z /\ named_ok z /\ nnames z = nnames x /\ forall v, nget z v = kconj (nget x v).
Proof. exact (named_conj_spec x). Qed.
Print Assumptions C44_conj.
Theorem C44_to_array (K : StarRing) (x : named K) order :
  named_ok x -> Permutation order (nnames x) ->
  exists a, nto_array x order = Ok a /\ ndwf a /\ shp a = map (ndimof x) order /\
    forall v, in_range v x -> get a (map v order) = nget x v.
Proof. exact (nto_array_spec x order). Qed.
Print Assumptions C44_to_array.
Theorem C44_to_array_error (K : StarRing) (x : named K) order :
  named_ok x -> ~ Permutation order (nnames x) -> nto_array x order = Err ValueError.
Proof. exact (nto_array_error x order). Qed.
Print Assumptions C44_to_array_error.
Theorem C44_tensordot (K : StarRing) (x y : named K) axes :
  let ax := map fst axes in
  let ay := map snd axes in
  let fx := filter (fun s => negb (smemb s ax)) (nnames x) in
  let fy := filter (fun s => negb (smemb s ay)) (nnames y) in
  named_ok x -> named_ok y -> incl ax (nnames x) -> incl ay (nnames y) -> NoDup ax -> NoDup ay ->
  map (ndimof x) ax = map (ndimof y) ay -> NoDup (fx ++ fy) ->
  exists z, ntensordot x y axes = Ok z /\ named_ok z /\ nnames z = fx ++ fy /\
    (forall s, In s fx -> ndimof z s = ndimof x s) /\ (forall s, In s fy -> ndimof z s = ndimof y s) /\
    forall v, in_range v z ->
      nget z v = msum (map (ndimof x) ax) (fun c => nget x (assign v ax c) * nget y (assign v ay c))%K.
Proof. exact (ntensordot_spec x y axes). Qed.
Print Assumptions C44_tensordot.
Theorem C44_tensordot_error (K : StarRing) (x y : named K) axes :
  (~ incl (map fst axes) (nnames x) \/ ~ incl (map snd axes) (nnames y) -> ntensordot x y axes = Err ValueError) /\
  (named_ok x -> named_ok y -> incl (map fst axes) (nnames x) -> incl (map snd axes) (nnames y) ->
   map (ndimof x) (map fst axes) <> map (ndimof y) (map snd axes) -> ntensordot x y axes = Err ValueError) /\
  (named_ok x -> named_ok y -> incl (map fst axes) (nnames x) -> incl (map snd axes) (nnames y) ->
   NoDup (map fst axes) -> NoDup (map snd axes) ->
   map (ndimof x) (map fst axes) = map (ndimof y) (map snd axes) ->
   ~ NoDup (filter (fun s => negb (smemb s (map fst axes))) (nnames x) ++
            filter (fun s => negb (smemb s (map snd axes))) (nnames y)) ->
   ntensordot x y axes = Err AssertionError).
Proof. split; [apply ntensordot_unknown|split; [apply ntensordot_mismatch|apply ntensordot_clash]]. Qed.
Print Assumptions C44_tensordot_error.
Definition ex_n : named GZ := mkNamed (mk [2; 3] [g 1 0; g 2 0; g 3 0; g 4 0; g 5 1; g 6 0]) ["a"; "b"].
Definition ex_m : named GZ := mkNamed (mk [3; 2; 2] (map gi [1; 2; 3; 4; 5; 6; 7; 8; 9; 10; 11; 12]%Z)) ["b"; "a"; "c"].
Definition ex_v (s : string) : nat := if String.eqb s "a" then 2 else if String.eqb s "b" then 1 else 0.
(** A swap of two names; the contraction of the axes [b]; axes in another order. *)
Example C44_ex : named_ok ex_n /\ named_ok ex_m /\
  (exists z, nrename ex_n [("a", "b"); ("b", "a")] = Ok z /\ nnames z = ["b"; "a"] /\ nget z ex_v = g 6 0) /\
  (exists z, ntensordot ex_n ex_m [("b", "b"); ("a", "a")] = Ok z /\ nnames z = ["c"] /\ narr z = mk [2] [g 151 7; g 172 8]) /\
  ntensordot ex_n ex_m [("b", "b")] = Err AssertionError /\
  nto_array ex_n ["b"; "a"] = Ok (mk [3; 2] [g 1 0; g 4 0; g 2 0; g 5 1; g 3 0; g 6 0]) /\
  nto_array ex_n ["a"; "a"] = Err ValueError.
Proof.
  split; [split; [reflexivity|split; [reflexivity|apply snodupb_iff; vmc]]|].
  split; [split; [reflexivity|split; [reflexivity|apply snodupb_iff; vmc]]|].
  split; [eexists; split; [vm_compute; reflexivity|split; vm_compute; reflexivity]|]. split; [eexists; split; [vm_compute; reflexivity|split; vm_compute; reflexivity]|]. vms.
Qed.

(** ** C60, C61, C67: eig and eig_sum.

    [mps_inv ds x]: [x] is an MPS with site dimensions [ds], all sizes positive and
    a canonical form in range.  [lenv]/[renv]: the environments of the sites left
    and right of the window, computed from scratch with the function that adds one
    site ([o_ladd], [o_radd] for an MPO; [eig_sum_ladd], [eig_sum_radd] for a list).
    [ins pos v l]: the [v] entries of [l] from [pos]; [outside pos v x y]: [y] agrees
    with [x] outside of the window. *)
Theorem C60_local_op_quadratic_form (K : StarRing) (w x : ltens K) ds pos v :
  mpa_ok w -> mpo_like (lts w) ds ds -> mps_inv ds x -> 1 <= v -> pos + v <= List.length ds ->
  exists l r op,
    lenv (nd K) (o_ladd w) (np_ones 3) (lts x) pos = Ok l /\
    renv (nd K) (List.length ds) v (o_radd w) (np_ones 3) (lts x) pos = Ok r /\
    eig_local_op l (pyslice (lts w) (Z.of_nat pos) (Z.of_nat (pos + v))) r = Ok op /\
    let sh := bond_l (PfEig.ins pos v (lts x)) :: PfEig.ins pos v ds ++ [bond_r (PfEig.ins pos v (lts x))] in
    shp op = [size sh; size sh] /\
    forall y z, mpa_ok y -> mpa_ok z -> mps_like (lts y) ds -> mps_like (lts z) ds ->
      outside pos v x y -> outside pos v x z ->
      let ty := ltens_to_array (PfEig.ins pos v (lts y)) in
      let tz := ltens_to_array (PfEig.ins pos v (lts z)) in
      shp ty = sh /\ shp tz = sh /\
      sandwich w y (Some z) =
      Ok (msum sh (fun r => msum sh (fun c =>
            kconj (get tz r) * get op [ravel sh r; ravel sh c] * get ty c)))%K.
Proof. exact (local_quad w x ds pos v). Qed.
Print Assumptions C60_local_op_quadratic_form.

(** [fresh_eig]: the sweeps in which every local problem is solved with
    environments computed from the current MPS; nothing is assumed of the
    factorisations and of the eigensolver. *)
Theorem C61_eig_fresh (K : StarRing) qr svd eigs rs (mpo : ltens K) num v sv rk :
  1 <= v -> start_len rs sv (llen mpo) ->
  eig qr svd eigs rs mpo num v sv rk =
  passert (Nat.ltb v (llen mpo)) (
    do x <- start_vector rs sv rk;
    fresh_eig qr (nd K) (llen mpo) v (o_ladd mpo) (o_radd mpo)
      (fun pos l ts r => eig_minimize qr svd eigs l (pyslice (lts mpo) (Z.of_nat pos) (Z.of_nat (pos + v))) r ts)
      (np_ones 3) num x).
Proof. exact (eig_fresh qr svd eigs rs mpo num v sv rk). Qed.
Print Assumptions C61_eig_fresh.
Theorem C61_eig_sum_fresh (K : StarRing) qr svd eigs rs (m0 : ltens K) mpas num v sv rk :
  1 <= v -> Forall (fun m => llen m = llen m0) mpas -> Forall (fun m => lts m <> []) (m0 :: mpas) ->
  start_len rs sv (llen m0) ->
  eig_sum qr svd eigs rs (m0 :: mpas) num v sv rk =
  passert (Nat.ltb v (llen m0)) (
    do x <- start_vector rs sv rk;
    fresh_eig qr (list (nd K)) (llen m0) v (eig_sum_ladd (m0 :: mpas)) (eig_sum_radd (m0 :: mpas))
      (fun pos l ts r =>
         do op <- eig_sum_op (m0 :: mpas) l (Z.of_nat pos) (Z.of_nat (pos + v)) r;
         eig_minimize2 qr svd eigs op ts)
      (map (fun m => np_ones (Z.to_nat (1 + hd 0%Z (ndims m)))) (m0 :: mpas)) num x).
Proof. exact (eig_sum_fresh qr svd eigs rs m0 mpas num v sv rk). Qed.
Print Assumptions C61_eig_sum_fresh.
(** [dense_eig ds M v num x]: right-canonical start, then the sweeps; the operator
    of each local problem is the dense matrix [M] compressed to the window of the
    current MPS. *)
Theorem C61_eig_dense (K : StarRing) qr svd eigs rs (mpo : ltens K) num v sv rk ds :
  qr_sound qr -> svd_sound svd -> eigs_wf eigs ->
  mpa_ok mpo -> mpo_like (lts mpo) ds ds -> 1 <= v -> start_ok rs sv ds ->
  eig qr svd eigs rs mpo num v sv rk =
  passert (Nat.ltb v (List.length ds)) (
    do x <- start_vector rs sv rk;
    dense_eig qr svd eigs ds (fun is js => amp (lts mpo) (pairs is js) 0 0) v num x).
Proof. intros H1 H2 H3. exact (eig_dense qr svd eigs H1 H2 H3 rs mpo num v sv rk ds). Qed.
Print Assumptions C61_eig_dense.

(** [sum_ker mpas]: the sum of the matrices of the MPOs and of the projectors onto
    the MPSs of the list. *)
Theorem C67_local_op (K : StarRing) mpas (mpo x : ltens K) ds pos v :
  mpas <> [] -> Forall (fun m => is_op m ds \/ is_state m ds) mpas -> is_op mpo ds ->
  (forall is js, inr is ds -> inr js ds -> amp (lts mpo) (pairs is js) 0 0 = sum_ker mpas is js) ->
  mps_inv ds x -> 1 <= v -> pos + v <= List.length ds ->
  exists ls rs l r op,
    lenv (list (nd K)) (eig_sum_ladd mpas) (map (fun m => np_ones (Z.to_nat (1 + hd 0%Z (ndims m)))) mpas) (lts x) pos = Ok ls /\
    renv (list (nd K)) (List.length ds) v (eig_sum_radd mpas) (map (fun m => np_ones (Z.to_nat (1 + hd 0%Z (ndims m)))) mpas) (lts x) pos = Ok rs /\
    lenv (nd K) (o_ladd mpo) (np_ones 3) (lts x) pos = Ok l /\
    renv (nd K) (List.length ds) v (o_radd mpo) (np_ones 3) (lts x) pos = Ok r /\
    eig_sum_op mpas ls (Z.of_nat pos) (Z.of_nat (pos + v)) rs = Ok op /\
    eig_local_op l (pyslice (lts mpo) (Z.of_nat pos) (Z.of_nat (pos + v))) r = Ok op.
Proof. exact (sum_local_op mpas mpo x ds pos v). Qed.
Print Assumptions C67_local_op.
(** [as_mpo]: [mps_to_mpo] for an MPS, nothing for an MPO. *)
Theorem C67_eig_sum_is_eig (K : StarRing) qr svd eigs rs (mpas ops : list (ltens K)) mpo num v sv rk ds :
  qr_sound qr -> svd_sound svd -> eigs_wf eigs ->
  mpas <> [] -> Forall (fun m => is_op m ds \/ is_state m ds) mpas ->
  mapM as_mpo mpas = Ok ops -> msumup ops None = Ok mpo ->
  1 <= v -> start_ok rs sv ds ->
  eig_sum qr svd eigs rs mpas num v sv rk = eig qr svd eigs rs mpo num v sv rk.
Proof. intros H1 H2 H3. exact (eig_sum_api qr svd eigs H1 H2 H3 rs mpas ops mpo num v sv rk ds). Qed.
Print Assumptions C67_eig_sum_is_eig.

(** An eigensolver for the examples: the largest diagonal entry and its unit vector
    (the eigenpair of a diagonal matrix). *)
Definition eigs_gz (op : nd GZ) (v0 : list GZ) : res (nd GZ * nd GZ) :=
  match shp op with
  | [m; _] =>
      let best := fold_right (fun i b => if (fst (get op [b; b]) <? fst (get op [i; i]))%Z then i else b) 0 (seq 0 m) in
      Ok (mk [1] [get op [best; best]], tab [m; 1] (fun i => delta (nth 0 i 0) best))
  | _ => Err LinAlgError
  end.
Lemma eigs_gz_wf : eigs_wf eigs_gz.
Proof.
  intros op v0 val vec E. unfold eigs_gz in E. destruct (shp op) as [|m [|k [|]]]; try discriminate.
  injection E as <- <-. apply wf_tab.
Qed.
(** A diagonal operator on three sites. *)
Definition ex_h : ltens GZ :=
  mkLt [mk [1;2;2;2] [g 1 0; g 0 0; g 0 0; g 0 0; g 0 0; g 0 0; g 1 0; g 1 0];
        mk [2;2;2;2] [g 1 0; g 0 0; g 0 0; g 0 0; g 0 0; g 0 0; g 1 0; g 2 0; g 0 0; g 5 0; g 0 0; g 0 0; g 0 0; g 0 0; g 0 0; g 3 0];
        mk [2;2;2;1] [g 1 0; g 0 0; g 0 0; g 2 0; g 1 0; g 0 0; g 0 0; g 7 0]] 0 3.
Lemma ex_ghz_inv : mps_inv [2;2;2] ex_ghz.
Proof.
  split; [split; [discriminate|split; [repeat constructor; cbn; lia|repeat constructor; cbn; lia]]|].
  split; [reflexivity|]. cbn. unfold cform_wk; cbn; lia.
Qed.
Lemma ex_h_op : is_op ex_h [2;2;2].
Proof. split; [apply mpa_okb_ok; vmc|split; reflexivity]. Qed.
Definition no_start (r : nat) : res (ltens GZ) := Err ValueError.
(** The eigenvalue and the dense eigenvector. *)
Definition eig_of (r : res (GZ * ltens GZ)) : option (GZ * nd GZ) :=
  match r with Ok p => Some (fst p, to_array (snd p)) | Err _ => None end.
Definition unit8 (k : nat) : nd GZ := tab [2;2;2] (fun i => delta (ravel [2;2;2] i) k).
(** Two sweeps with one and with two sites; the solver changes the state. *)
Example C61_ex : start_ok no_start (Some ex_ghz) [2;2;2] /\ is_op ex_h [2;2;2] /\
  eig_of (eig qr_gz svd_gz eigs_gz no_start ex_h 2 1 (Some ex_ghz) None) = Some (g 37 0, unit8 7) /\
  eig_of (eig qr_gz svd_gz eigs_gz no_start ex_h 2 2 (Some ex_ghz) None) = Some (g 37 0, unit8 7) /\
  eig_of (eig_sum qr_gz svd_gz eigs_gz no_start [ex_h; ex_ghz] 2 1 (Some ex_ghz) None) = Some (g 41 0, unit8 7) /\
  eig_of (eig_sum qr_gz svd_gz eigs_gz no_start [ex_h; ex_h] 2 2 (Some ex_ghz) None) = Some (g 74 0, unit8 7) /\
  eig qr_gz svd_gz eigs_gz no_start ex_h 0 1 (Some ex_ghz) None = Err UnboundLocalError /\
  eig qr_gz svd_gz eigs_gz no_start ex_h 1 3 (Some ex_ghz) None = Err AssertionError.
Proof. split; [exact ex_ghz_inv|]. split; [exact ex_h_op|]. repeat (split; [vmc|]). vmc. Qed.
(** What [eig] and [eig_sum] refuse.  [start_err]: no start vector and no rank above one, or a start
    vector with two neighbouring bonds of dimension one.  Without a sweep there is nothing to return. *)
Theorem C61_errors (K : StarRing) qr svd eigs rs (mpo : ltens K) num v sv rk : (llen mpo <= v -> eig qr svd eigs rs mpo num v sv rk = Err AssertionError) /\
  (forall e, v < llen mpo -> start_err sv rk e -> eig qr svd eigs rs mpo num v sv rk = Err e) /\ exists e, eig qr svd eigs rs mpo 0 v sv rk = Err e.
Proof. destruct (eig_errors qr svd eigs rs mpo num v sv rk) as [A B]. split; [exact A|]. split; [exact B|]. exact (eig_no_sweep qr svd eigs rs mpo v sv rk). Qed.
Print Assumptions C61_errors.
Theorem C61_sum_errors (K : StarRing) qr svd eigs rs num v sv rk : eig_sum qr svd eigs rs [] num v sv rk = Err IndexError /\
  (forall (m0 : ltens K) mpas, (Exists (fun m => llen m <> llen m0) mpas -> eig_sum qr svd eigs rs (m0 :: mpas) num v sv rk = Err AssertionError) /\
    (Forall (fun m => llen m = llen m0 /\ lts m <> []) (m0 :: mpas) ->
      (llen m0 <= v -> eig_sum qr svd eigs rs (m0 :: mpas) num v sv rk = Err AssertionError) /\ (forall e, v < llen m0 -> start_err sv rk e -> eig_sum qr svd eigs rs (m0 :: mpas) num v sv rk = Err e))) /\
  forall mpas : list (ltens K), exists e, eig_sum qr svd eigs rs mpas 0 v sv rk = Err e.
Proof. destruct (eig_sum_errors qr svd eigs rs num v sv rk) as [A B]. split; [exact A|]. split; [exact B|]. intros mpas. exact (eig_sum_no_sweep qr svd eigs rs mpas v sv rk). Qed.
Print Assumptions C61_sum_errors.
Definition ex_z3 : ltens GZ := mkLt [mk [1;2;1] [gi 1; gi 0]; mk [1;2;1] [gi 1; gi 0]; mk [1;2;1] [gi 1; gi 0]] 0 3.
Example C61_errors_ex : start_err (Some ex_z3) None AssertionError /\ start_err (None : option (ltens GZ)) (Some 1) ValueError /\
  eig qr_gz svd_gz eigs_gz no_start ex_h 2 1 (Some ex_z3) None = Err AssertionError /\ eig_sum qr_gz svd_gz eigs_gz no_start [ex_h; ex_ghz] 2 1 None None = Err ValueError.
Proof.
  split; [|split; [|split; vmc]].
  - right. exists ex_z3. split; [reflexivity|]. split; [apply mpa_okb_ok; vmc|]. split; [apply cform_okb_ok; vmc|]. split; [exists [], [1; 1]; reflexivity|reflexivity].
  - left. auto.
Qed.
(** The hypotheses of C67 hold of an operator and a state. *)
Definition ex_sum : res (ltens GZ) := do ops <- mapM as_mpo [ex_h; ex_ghz]; msumup ops None.
Example C67_ex : Forall (fun m => is_op m [2;2;2] \/ is_state m [2;2;2]) [ex_h; ex_ghz] /\
  ranks_of ex_sum = Some [6; 6] /\
  eig_of (do m <- ex_sum; eig qr_gz svd_gz eigs_gz no_start m 2 1 (Some ex_ghz) None) = Some (g 41 0, unit8 7).
Proof.
  split.
  - constructor; [left; exact ex_h_op|]. constructor; [right|constructor].
    destruct ex_ghz_inv as (H1 & H2 & _). split; assumption.
  - split; vmc.
Qed.
(** The window of the middle site: environments, operator and both sides of C60. *)
Definition ex_ghz' : ltens GZ :=
  mkLt [nth 0 (lts ex_ghz) dummy; mk [2;2;2] [g 1 0; g 0 1; g 2 0; g 0 0; g 0 3; g 0 0; g 1 1; g 2 0]; nth 2 (lts ex_ghz) dummy] 0 3.
Example C60_ex : mps_inv [2;2;2] ex_ghz /\ mpa_ok ex_o /\ mpo_like (lts ex_o) [2;2;2] [2;2;2] /\
  outside 1 1 ex_ghz ex_ghz' /\ outside 1 1 ex_ghz ex_ghz /\
  sandwich ex_o ex_ghz' (Some ex_ghz) = Ok (g 88 39).
Proof.
  split; [exact ex_ghz_inv|]. split; [apply ex_ok; cbn; auto|]. split; [split; reflexivity|].
  split; [split; [reflexivity|split; reflexivity]|]. split; [split; [reflexivity|split; reflexivity]|]. vmc.
Qed.

(** ** C62: variational compression.
    [state x is] is the entry of an MPS, [ip ds f g = sum_i conj (f i) g(i)].
    [fresh_adapt]: all environments computed from the current tensors. *)
Theorem C62_fresh (K : StarRing) qr svd (x w : ltens K) num v :
  1 <= v <= llen w -> llen x = llen w -> (0 <= lcan x)%Z -> (rcan x <= Z.of_nat (llen w))%Z ->
  adapt_to qr svd x w num v =
  passert (forallb (fun d => (d =? 1)%Z) (ndims x)) (
  passert (forallb (fun d => (d =? 1)%Z) (ndims w)) (fresh_adapt qr svd w v num x)).
Proof. exact (adapt_fresh qr svd x w num v). Qed.
Print Assumptions C62_fresh.
(** [dense_adapt ds T v num x]: right-canonical start, sweeps in which each window is
    replaced by the overlap of the dense target [T] with the sites outside of it
    ([proj_locl]), square of the norm. *)
Theorem C62_dense (K : StarRing) qr svd ds (x w : ltens K) num v :
  qr_sound qr -> svd_sound svd -> 1 <= v <= List.length ds -> 2 <= List.length ds ->
  chain_ok (lts w) 1 1 -> mps_like (lts w) ds -> mps_inv ds x ->
  adapt_to qr svd x w num v = dense_adapt qr svd ds (state w) v num x.
Proof. intros H1 H2. exact (adapt_dense qr svd H1 H2 ds x w num v). Qed.
Print Assumptions C62_dense.
(** One update of one site, [ad_ok]: sites before [pos] left-, sites after [pos]
    right-canonical.  The new state lies in the space of the states that agree
    with the old one outside of [pos], and no state of this space tells it from
    the target: it is the orthogonal projection. *)
Theorem C62_projection (K : StarRing) qr svd ds T mr (x : ltens K) pos o s' y :
  ad_ok ds 1 mr pos x -> S pos <= List.length ds ->
  g_local unit 1 (proj_locl qr svd ds T 1 mr) (x, o) pos = Ok s' ->
  mpa_ok y -> mps_like (lts y) ds -> outside pos 1 x y ->
  outside pos 1 x (fst s') /\ ip ds (state y) (state (fst s')) = ip ds (state y) T.
Proof. exact (proj_orth qr svd ds T mr x pos o s' y). Qed.
Print Assumptions C62_projection.
(** One update of [v] sites: the ranks stay below [mr], the overlap with the target
    is the square of the norm. *)
Theorem C62_update (K : StarRing) qr svd ds (T : list nat -> K) v mr s pos :
  qr_sound qr -> svd_sound svd ->
  1 <= v -> v <= List.length ds -> 0 < mr -> ad_ok ds v mr pos (fst s) -> pos <= List.length ds - v ->
  outc (FQS svd (truncated_svd svd) qr) (g_local unit v (proj_locl qr svd ds T v mr) s pos)
    (fun s' => ad_ok ds v mr pos (fst s') /\ ip ds (state (fst s')) T = ip ds (state (fst s')) (state (fst s'))).
Proof. intros H1 H2. exact (proj_step qr svd H1 H2 ds T v mr s pos). Qed.
Print Assumptions C62_update.
(** The compressed array and the returned overlap, for all shapes.  [m] bounds the
    ranks of the start; [cstart_ok]: the start has the shape of [x]. *)
Theorem C62_compress_var (K : StarRing) qr svd rc (x : ltens K) num sv rank v m :
  qr_sound qr -> svd_sound svd -> mpa_pos x -> cform_ok x -> canon_true x ->
  (2 <= llen x -> 1 <= v <= llen x /\ cstart_ok rc x sv rank m) ->
  outc (FQS svd (truncated_svd svd) qr) (compression_var qr svd rc x num sv rank v) (fun p => let c := fst p in
    mpa_pos c /\ cform_ok c /\ canon_true c /\ mshape c = mshape x /\
    (2 <= llen x -> Forall (fun k => k <= m) (ranks c)) /\
    snd p = norm2_of c /\ (0 < num -> snd p = inner_of x c)).
Proof. intros H1 H2. exact (compression_var_spec qr svd H1 H2 rc x num sv rank v m). Qed.
Print Assumptions C62_compress_var.
(** The returned number is the value of [inner], and the squared distance to the
    original is the difference of the squared norms. *)
Corollary C62_overlap (K : StarRing) qr svd rc (x c : ltens K) ov num sv rank v m :
  qr_sound qr -> svd_sound svd -> mpa_pos x -> cform_ok x -> canon_true x ->
  (2 <= llen x -> 1 <= v <= llen x /\ cstart_ok rc x sv rank m) -> 0 < num ->
  compression_var qr svd rc x num sv rank v = Ok (c, ov) ->
  (exists a, minner x c = Ok a /\ get a [] = ov) /\ dist2_of x c = (norm2_of x - ov)%K.
Proof.
  intros H1 H2 Hx Fx Tx Hs Hn E.
  destruct (outc_inv _ _ _ _ (C62_compress_var K qr svd rc x num sv rank v m H1 H2 Hx Fx Tx Hs) E) as (Hc & _ & _ & S & _ & N & I).
  cbn [fst snd] in *. specialize (I Hn). split.
  - destruct (minner_spec x c (proj1 Hx) (proj1 Hc) (mpa_pos_bonds x Hx) (mpa_pos_bonds c Hc) (eq_sym S)) as (a & Ea & _ & _ & Va).
    exists a. split; [exact Ea|]. rewrite Va, I. unfold inner_of. apply msums_ext. intros is Hi.
    rewrite !entry_amp by (try apply Hx; try apply Hc; rewrite ?S; exact Hi). reflexivity.
  - rewrite (pythagoras x c S); [rewrite N; reflexivity|]. unfold norm2_of in N. congruence.
Qed.
Print Assumptions C62_overlap.
Theorem C62_no_start (K : StarRing) qr svd rc (x : ltens K) num v :
  llen x <> 1 -> compression_var qr svd rc x num None None v = Err ValueError.
Proof. exact (compression_var_none qr svd rc x num v). Qed.
Print Assumptions C62_no_start.
(** A start vector without bonds: [max] of no ranks. *)
Theorem C62_one_site_start (K : StarRing) qr svd rc (x s : ltens K) num rank v :
  llen x <> 1 -> llen s <= 1 -> compression_var qr svd rc x num (Some s) rank v = Err ValueError.
Proof.
  intros Hx Hs. unfold compression_var. apply Nat.eqb_neq in Hx. rewrite Hx. unfold max_rank, ranks. unfold llen in Hs.
  destruct (lts s) as [|t [|u ts]]; cbn in Hs; [reflexivity|reflexivity|lia].
Qed.
Print Assumptions C62_one_site_start.
(** 3 |000> + 2 i |111> from the start |000>: one and two sites. *)
Definition ex_000 : ltens GZ := mkLt [mk [1;2;1] [gi 1; gi 0]; mk [1;2;1] [gi 1; gi 0]; mk [1;2;1] [gi 1; gi 0]] 0 3.
Definition var_of (n v : nat) : option (GZ * list nat * nd GZ) :=
  match compression_var qr_gz svd_gz no_start ex_ghz n (Some ex_000) None v with
  | Ok p => Some (snd p, ranks (fst p), to_array (fst p))
  | Err _ => None
  end.
Definition e000 (a : GZ) : nd GZ := tab [2;2;2] (fun i => if Nat.eqb (ravel [2;2;2] i) 0 then a else gi 0).
Lemma ex_000_start : cstart_ok no_start ex_ghz (Some ex_000) None 1.
Proof.
  split; [|repeat constructor]. split; [|split; [|split]].
  - split; [apply mpa_okb_ok; vmc|repeat constructor].
  - apply cform_okb_ok; vmc.
  - apply canon_trueb_ok; vmc.
  - reflexivity.
Qed.
Example C62_ex : mpa_pos ex_ghz /\ cform_ok ex_ghz /\ canon_true ex_ghz /\ cstart_ok no_start ex_ghz (Some ex_000) None 1 /\
  var_of 1 1 = Some (gi 9, [1;1], e000 (gi 3)) /\ var_of 2 2 = Some (gi 9, [1;1], e000 (gi 3)).
Proof.
  split; [apply chain_pos; apply ex_ghz_inv|]. split; [apply cform_okb_ok; vmc|]. split; [apply canon_trueb_ok; vmc|].
  split; [exact ex_000_start|]. split; vmc.
Qed.
(** The invariant [ad_ok] holds at the start of the sweeps. *)
Example C62_ex_update : ad_ok [2;2;2] 1 1 0 (mkLt (lts ex_000) 0 1).
Proof.
  split; [|split; [|split; [|split; [|split]]]].
  - split; [apply pos_chain; split; [apply mpa_okb_ok; vmc|repeat constructor]|]. split; [reflexivity|]. cbn. unfold cform_wk; cbn; lia.
  - apply cform_okb_ok; vmc.
  - apply canon_trueb_ok; vmc.
  - cbn; lia.
  - cbn; lia.
  - repeat constructor.
Qed.
(** Without an update -- no sweep, or more variational sites than sites -- the number
    returned is not the overlap with the original. *)
Definition var_gap (num v : nat) : Prop := exists (x c : ltens GZ) ov a,
  mpa_pos x /\ cform_ok x /\ canon_true x /\ cstart_ok no_start x (Some ex_000) None 1 /\
  compression_var qr_gz svd_gz no_start x num (Some ex_000) None v = Ok (c, ov) /\
  minner x c = Ok a /\ get a [] <> ov.
Theorem C62_no_update_refuted : var_gap 0 1 /\ var_gap 1 4.
Proof.
  split; exists ex_ghz, (mkLt (lts ex_000) 0 1), (gi 1), (mkNd [] [gi 3]).
  all: split; [apply chain_pos; apply ex_ghz_inv|]; split; [apply cform_okb_ok; vmc|]; split; [apply canon_trueb_ok; vmc|].
  all: split; [exact ex_000_start|]; split; [vmc|]; split; [vmc|discriminate].
Qed.
Print Assumptions C62_no_update_refuted.
