(** Property theorems: factories (factory.py), special-purpose routines (special.py) and
    dense helpers (utils/extmath.py).

    Random factories are stated for every stream [s] of draws; the only thing assumed of
    it is that every draw has the shape that was asked for ([stream_ok]). *)
From Verif Require Import Oracles PfHam PfSpecial.
Open Scope nat_scope.

(** ** C42: zero, eye, diagonal_mpa *)
(** [asked_ranks] are the ranks asked for, [gen_ranks] the same cut at [full_rank] unless
    [force_rank]; [site_dims] is the list of leg dimensions per site ([PfFactory]). *)
Theorem C42_zero (K : StarRing) sites ld rank force dims :
  0 < sites -> site_dims sites ld = Ok dims -> length dims = sites -> length (asked_ranks sites rank) + 1 = sites ->
  exists z : ltens K, mpa_zero sites ld rank force = Ok z /\ mpa_ok z /\ mshape z = dims /\ ranks z = gen_ranks sites dims rank force /\
    canonical_form z = (0%Z, Z.of_nat sites) /\ canon_true z /\
    forall is, valid_idx is dims -> entry z is = k0.
Proof. exact (zero_spec sites ld rank force dims). Qed.
Print Assumptions C42_zero.
Theorem C42_eye (K : StarRing) sites (arg : eyearg) (ds : list nat) :
  0 < sites -> length ds = sites -> arg = EyeList ds \/ (exists d, arg = EyeInt d /\ ds = repeat d sites) ->
  exists z : ltens K, mpo_eye sites arg = Ok z /\ mpa_ok z /\ mshape z = map (fun d => [d; d]) ds /\ Forall (fun r => r = 1) (ranks z) /\
    canonical_form z = (0%Z, Z.of_nat sites) /\
    forall is js, inr is ds -> inr js ds -> (is = js -> entry z (pairs is js) = k1) /\ (is <> js -> entry z (pairs is js) = k0).
Proof.
  intros Hs Hl Ha. assert (Ed : eye_dims sites arg = ds) by (destruct Ha as [->|(d & -> & ->)]; reflexivity).
  destruct (eye_spec (K:=K) sites arg Hs ltac:(rewrite Ed; exact Hl)) as (z & E1 & E2 & E3 & E4 & E5 & E6). rewrite Ed in *.
  exists z. split; [exact E1|]. split; [exact E2|]. split; [exact E3|]. split; [exact E4|]. split; [exact E5|].
  intros is js Hi Hj. rewrite (E6 is js Hi Hj). destruct (list_eq_dec Nat.eq_dec is js); split; congruence.
Qed.
Print Assumptions C42_eye.
Theorem C42_eye_error (K : StarRing) sites ds : length ds <> sites \/ sites = 0 -> mpo_eye (K:=K) sites (EyeList ds) = Err AssertionError.
Proof. exact (eye_error sites (EyeList ds)). Qed.
Print Assumptions C42_eye_error.
(** The given numbers on the diagonal, zero elsewhere; the form (n - 1, n) is true. *)
Theorem C42_diagonal (K : StarRing) (qr : nd K -> res (nd K * nd K)) (v : nd K) n d : shp v = [d] -> 0 < d -> 2 <= n ->
  exists z, diagonal_mpa qr v n = Ok z /\ mpa_pos z /\ mshape z = repeat [d] n /\ ranks z = repeat d (n - 1) /\
    canonical_form z = (Z.of_nat n - 1, Z.of_nat n)%Z /\ canon_true z /\
    (forall i, i < d -> entry z (singles (repeat i n)) = get v [i]) /\
    (forall i is j, i < d -> inr is (repeat d (n - 1)) -> In j is -> j <> i -> entry z (singles (i :: is)) = k0).
Proof.
  intros Sv Hd Hn. destruct (diagonal_many qr v n d Sv Hd Hn) as (z & E1 & E2 & E3 & E4 & E5 & E6 & E7). exists z.
  do 6 (split; [assumption|]). split.
  - intros i Hi. replace n with (S (n - 1)) by lia. cbn [repeat]. rewrite E7; [|exact Hi|clear - Hi; induction (n - 1); cbn [repeat]; constructor; auto].
    rewrite kprod_delta_same by (intros j Hj; apply repeat_spec in Hj; exact Hj). rewrite (Rmul_1_l (k_ring K)). reflexivity.
  - intros i is j Hi His Hj Hne. rewrite E7 by assumption. rewrite (kprod_delta_diff i is j Hj Hne). exact (kmul_0_l _).
Qed.
Print Assumptions C42_diagonal.
Theorem C42_diagonal_one (K : StarRing) (qr : nd K -> res (nd K * nd K)) (v : nd K) d :
  qr_sound qr -> ndwf v -> shp v = [d] -> 0 < d ->
  outc (qr_fails qr) (diagonal_mpa qr v 1) (fun z =>
    mpa_ok z /\ mshape z = [[d]] /\ to_array z = v /\ ranks z = [] /\ canonical_form z = (0, 1)%Z /\ canon_true z).
Proof.
  intros Hq W Sv Hd. unfold diagonal_mpa, ndim. rewrite Sv. cbn [Nat.ltb Nat.leb passert praise_unless length Nat.eqb].
  eapply outc_weaken; [apply (from_array_none_spec qr Hq v W); rewrite Sv, size_single; exact Hd|auto|].
  intros z (A1 & A2 & A3 & A4 & A5 & A6). rewrite Sv in A2. split; [exact A1|]. split; [exact A2|]. split; [exact A3|]. split; [exact A4|]. split; [|exact A6].
  rewrite A5. assert (L : llen z = 1) by (rewrite <- mshape_length, A2; reflexivity). rewrite L. reflexivity.
Qed.
Print Assumptions C42_diagonal_one.
Theorem C42_diagonal_error (K : StarRing) (qr : nd K -> res (nd K * nd K)) (v : nd K) n :
  (n = 0 -> diagonal_mpa qr v n = Err AssertionError) /\ (0 < n -> ndim v <> 1 -> diagonal_mpa qr v n = Err NotImplementedError).
Proof.
  split; [intros ->; reflexivity|]. intros Hn Hv. unfold diagonal_mpa. replace (Nat.ltb 0 n) with true by (symmetry; apply Nat.ltb_lt; exact Hn).
  replace (Nat.eqb (ndim v) 1) with false by (symmetry; apply Nat.eqb_neq; exact Hv). reflexivity.
Qed.
Print Assumptions C42_diagonal_error.
Example C42_ex :
  entry_of (mpo_eye 3 (EyeList [2; 3; 2])) (pairs [1; 2; 0] [1; 2; 0]) = Some (g 1 0) /\
  entry_of (mpo_eye 3 (EyeList [2; 3; 2])) (pairs [1; 2; 0] [1; 1; 0]) = Some (g 0 0) /\
  ranks_of (mpa_zero 3 (LMany [[2]; [3; 2]; [2]]) (RkInt 5) false) = Some [2; 2] /\
  ranks_of (mpa_zero 3 (LMany [[2]; [3; 2]; [2]]) (RkInt 5) true) = Some [5; 5] /\
  entry_of (diagonal_mpa qr_gz (mk [3] [g 1 2; g 0 5; g 7 0]) 4) (singles [1; 1; 1; 1]) = Some (g 0 5) /\
  entry_of (diagonal_mpa qr_gz (mk [3] [g 1 2; g 0 5; g 7 0]) 4) (singles [1; 1; 2; 1]) = Some (g 0 0).
Proof. vms. Qed.

(** ** C43: random factories *)
(** [norm_factor x] is [1 / sqrt (norm2 x)] with the oracles for square root and division.
    The condition [kconj f * f * norm2 = 1] says that they are exact and the norm is not
    zero. *)
Theorem C43_random_mpa (K : StarRing) (qr : nd K -> res (nd K * nd K)) (sqrt_ inv : K -> K) s k sites ld rank normalized force dims :
  qr_sound qr -> stream_ok s -> 0 < sites -> site_dims sites ld = Ok dims -> length dims = sites -> length (asked_ranks sites rank) + 1 = sites ->
  Forall (fun p => 0 < size p) dims -> Forall (fun r => 0 < r) (asked_ranks sites rank) ->
  outc (qr_fails qr) (random_mpa qr sqrt_ inv s k sites ld rank normalized force) (fun z =>
    mpa_pos z /\ mshape z = dims /\ ranks z = gen_ranks sites dims rank force /\ canonical_form z = (0%Z, Z.of_nat sites) /\
    exists x, random_mpa qr sqrt_ inv s k sites ld rank false force = Ok x /\ mpa_pos x /\ mshape x = dims /\
      lts x = gen_ts (fun n => s (k + n)) (1 :: gen_ranks sites dims rank force ++ [1]) 0 dims /\
      (normalized = true -> (forall is, valid_idx is dims -> entry z is = (norm_factor sqrt_ inv x * entry x is)%K) /\
        ((kconj (norm_factor sqrt_ inv x) * norm_factor sqrt_ inv x * norm2_of x)%K = k1 -> norm2_of z = k1)) /\
      (normalized = false -> z = x)).
Proof. intros Hq. exact (random_mpa_spec qr sqrt_ inv Hq s k sites ld rank normalized force dims). Qed.
Print Assumptions C43_random_mpa.
(** Wrong number of sites or ranks; a list of ranks that is too long is refused only with
    [force_rank]. *)
Theorem C43_generate_error (K : StarRing) (qr : nd K -> res (nd K * nd K)) (sqrt_ inv : K -> K) s k sites ld rank normalized force dims :
  site_dims sites ld = Ok dims ->
  length dims <> sites \/ (length (asked_ranks sites rank) + 1 < sites \/ force = true /\ length (asked_ranks sites rank) + 1 <> sites) \/ sites = 0 ->
  random_mpa qr sqrt_ inv s k sites ld rank normalized force = Err AssertionError.
Proof. intros H1 H2. unfold random_mpa. rewrite (generate_error sites ld rank _ force dims H1 H2). reflexivity. Qed.
Print Assumptions C43_generate_error.
Theorem C43_random_mpo (K : StarRing) (qr : nd K -> res (nd K * nd K)) (sqrt_ inv : K -> K) s k sites d rank hermitian normalized force :
  qr_sound qr -> stream_ok s -> 0 < sites -> 0 < d -> length (asked_ranks sites rank) + 1 = sites -> Forall (fun r => 0 < r) (asked_ranks sites rank) ->
  outc (qr_fails qr) (random_mpo qr sqrt_ inv s k sites d rank hermitian normalized force) (fun z =>
    mpa_pos z /\ mshape z = repeat [d; d] sites /\ ranks z = gen_ranks sites (repeat [d; d] sites) rank force /\ canonical_form z = (0%Z, Z.of_nat sites) /\
    exists x, random_mpo qr sqrt_ inv s k sites d rank hermitian false force = Ok x /\ mpa_pos x /\ mshape x = repeat [d; d] sites /\
      (normalized = true -> ((forall is, valid_idx is (mshape x) -> entry z is = (norm_factor sqrt_ inv x * entry x is)%K) /\
        ((kconj (norm_factor sqrt_ inv x) * norm_factor sqrt_ inv x * norm2_of x)%K = k1 -> norm2_of z = k1))) /\
      (normalized = false -> z = x) /\
      (hermitian = true -> hermitian_mpo x (repeat d sites)) /\
      (hermitian = true -> (normalized = true -> kconj (norm_factor sqrt_ inv x) = norm_factor sqrt_ inv x) -> hermitian_mpo z (repeat d sites)) /\
      (hermitian = false -> random_mpa qr sqrt_ inv s k sites (LOne [d; d]) rank false force = Ok x)).
Proof. intros Hq. exact (random_mpo_spec qr sqrt_ inv Hq s k sites d rank hermitian normalized force). Qed.
Print Assumptions C43_random_mpo.
(** A mixture of pure product states with the drawn weights, divided by its trace. *)
Theorem C43_random_mpdo (K : StarRing) (qr sqr : nd K -> res (nd K * nd K)) (sqrt_ inv phase : K -> K) isq2 s sites ld rank ds :
  qr_sound qr -> sqr_sound sqr phase -> stream_ok s -> 0 < sites -> 0 < rank -> site_dims sites ld = Ok (singles ds) -> length ds = sites -> Forall (fun d => 0 < d) ds ->
  let raw := dat (s (rank * sites) [rank]) in
  let ws := map (fun w => w * inv (fold_right kadd k0 raw))%K raw in
  outc (qr_fails qr \/ sqr_fails sqr) (random_mpdo qr sqrt_ inv sqr phase isq2 s sites ld rank) (fun z =>
    mpa_ok z /\ mshape z = map (fun d => [d; d]) ds /\ ranks z = repeat rank (sites - 1) /\ canonical_form z = (0%Z, Z.of_nat sites) /\
    exists psis, mapM (fun i => random_mps qr sqrt_ inv s (i * sites) sites ld (RkInt 1) false) (seq 0 rank) = Ok psis /\
      length psis = rank /\ Forall (pure_product ds) psis /\
      let t := msum ds (fun cs => mixture ws psis cs cs) in
      (t = bigsum rank (fun k => nth k ws k0 * norm2_of (nth k psis (mkLt [] 0 0)))%K) /\
      (forall is js, inr is ds -> inr js ds -> entry z (pairs is js) = (inv t * mixture ws psis is js)%K) /\
      ((inv t * t)%K = k1 -> msum ds (fun cs => entry z (pairs cs cs)) = k1)).
Proof.
  intros Hq Hs Hst H1 H2 H3 H4 H5 raw ws. eapply outc_weaken; [apply (random_mpdo_spec qr sqrt_ inv sqr phase isq2 Hq Hs s sites ld rank ds); assumption|auto|].
  intros z (A1 & A2 & A3 & A4 & psis & B1 & B2 & B3 & B4 & B5). do 4 (split; [assumption|]). exists psis. do 3 (split; [assumption|]). cbn zeta. split; [exact B4|]. split; [exact B5|].
  intros E. rewrite <- E. rewrite <- msum_mul_l. apply msum_ext. intros cs Hc. apply B5; exact Hc.
Qed.
Print Assumptions C43_random_mpdo.
Theorem C43_random_mpdo_rank0 (K : StarRing) (qr sqr : nd K -> res (nd K * nd K)) (sqrt_ inv phase : K -> K) isq2 s sites ld :
  random_mpdo qr sqrt_ inv sqr phase isq2 s sites ld 0 = Err IndexError.
Proof. exact (random_mpdo_rank0 qr sqrt_ inv sqr phase isq2 s sites ld). Qed.
Print Assumptions C43_random_mpdo_rank0.
(** The matrix of [_unitary_haar] has orthonormal rows. *)
Theorem C43_unitary_haar (K : StarRing) (sqr : nd K -> res (nd K * nd K)) (phase : K -> K) isq2 s k d :
  sqr_sound sqr phase -> stream_ok s -> 0 < d -> outc (sqr_fails sqr) (unitary_haar sqr phase isq2 s k d) (fun u => unitary_rows u d).
Proof. intros H. exact (unitary_haar_spec sqr phase isq2 H s k d). Qed.
Print Assumptions C43_unitary_haar.
(** Dense random vectors, operators and states. *)
Theorem C43_random_vec (K : StarRing) (sqrt_ inv : K -> K) s k n d : stream_ok s ->
  let psi := s k (repeat d n) in let f := inv (sqrt_ (abs2 psi)) in let z := random_vec sqrt_ inv s k n d in
  ndwf z /\ shp z = repeat d n /\ (forall is, get z is = (f * get psi is)%K) /\ ((kconj f * f * abs2 psi)%K = k1 -> abs2 z = k1).
Proof. exact (random_vec_spec sqrt_ inv s k n d). Qed.
Print Assumptions C43_random_vec.
Theorem C43_random_op (K : StarRing) (sqrt_ inv : K -> K) s k n d h nm : stream_ok s ->
  let z := random_op sqrt_ inv s k n d h nm in let f := op_factor sqrt_ inv s k n d h in
  ndwf z /\ shp z = repeat d (2 * n) /\
  (forall is js, inr is (repeat d n) -> inr js (repeat d n) ->
     get z (is ++ js) = ((if nm then f else k1) * op_raw s k n d h (ravel (repeat d n) is) (ravel (repeat d n) js))%K) /\
  (nm = true -> (kconj f * f * op_norm2 s k n d h)%K = k1 -> abs2 z = k1) /\
  (h = true -> (nm = true -> kconj f = f) ->
     forall is js, inr is (repeat d n) -> inr js (repeat d n) -> get z (is ++ js) = kconj (get z (js ++ is))).
Proof. exact (random_op_spec sqrt_ inv s k n d h nm). Qed.
Print Assumptions C43_random_op.
Theorem C43_random_state (K : StarRing) (inv : K -> K) s k n d : stream_ok s ->
  let z := random_state inv s k n d in let t := bigsum (Nat.pow d n) (fun i => PfHam.gram s k n d i i) in
  ndwf z /\ shp z = repeat d (2 * n) /\
  (forall is js, inr is (repeat d n) -> inr js (repeat d n) ->
     get z (is ++ js) = (inv t * PfHam.gram s k n d (ravel (repeat d n) is) (ravel (repeat d n) js))%K) /\
  ((inv t * t)%K = k1 -> msum (repeat d n) (fun is => get z (is ++ is)) = k1).
Proof. exact (random_state_spec inv s k n d). Qed.
Print Assumptions C43_random_state.
(** The sum of the Hermitian terms [ham_term] on all windows of [w] neighbouring sites. *)
Theorem C43_random_local_ham (K : StarRing) (qr : nd K -> res (nd K * nd K)) (sqrt_ inv : K -> K) glob rs sites d w :
  qr_sound qr -> stream_ok glob -> 0 < d -> 0 < w -> w <= sites ->
  outc (qr_fails qr) (random_local_ham qr sqrt_ inv glob rs sites d w) (fun z =>
    mpa_ok z /\ mshape z = repeat [d; d] sites /\ canonical_form z = (0%Z, Z.of_nat sites) /\
    (forall is js, inr is (repeat d sites) -> inr js (repeat d sites) ->
       entry z (pairs is js) = bigsum (sites + 1 - w) (fun a => agree (firstn a is) (firstn a js) *
          get (ham_term sqrt_ inv glob d w a) (firstn w (skipn a is) ++ firstn w (skipn a js)) * agree (skipn (a + w)%nat is) (skipn (a + w)%nat js))%K) /\
    ((forall a, a < sites + 1 - w -> kconj (op_factor sqrt_ inv glob a w d true) = op_factor sqrt_ inv glob a w d true) -> hermitian_mpo z (repeat d sites))).
Proof. intros Hq. exact (random_local_ham_spec qr sqrt_ inv Hq glob rs sites d w). Qed.
Print Assumptions C43_random_local_ham.
Theorem C43_random_local_ham_error (K : StarRing) (qr : nd K -> res (nd K * nd K)) (sqrt_ inv : K -> K) glob rs sites d w :
  sites < w -> random_local_ham qr sqrt_ inv glob rs sites d w = Err AssertionError.
Proof. exact (random_local_ham_error qr sqrt_ inv glob rs sites d w). Qed.
Print Assumptions C43_random_local_ham_error.

(** Concrete streams.  [st] gives unit vectors and permutation matrices; [st2] has entries
    without structure. *)
Definition st : stream (K:=GZ) := fun k sh => tab sh (fun idx =>
  match sh with
  | [_; _] => if Nat.eqb (nth 0 idx 0 + nth 1 idx 0) 1 then g 0 1 else g 0 0
  | _ => if Nat.eqb (ravel sh idx) (if Nat.eqb (last sh 0) 1 then Nat.modulo k 2 else 0) then g 1 0 else g 0 0
  end).
Definition st2 : stream (K:=GZ) := fun k sh => tab sh (fun idx => g (Z.of_nat (ravel sh idx + k)) (Z.of_nat (Nat.modulo (ravel sh idx) 3) - 1)).
Lemma st_ok : stream_ok st /\ stream_ok st2.
Proof. split; intros k sh; (split; [reflexivity|apply wf_tab]). Qed.
(** A square matrix that is unitary already is its own [q]. *)
Definition sqr_gz (a : nd GZ) : res (nd GZ * nd GZ) :=
  let d := hd 0 (shp a) in
  if iso_tab d (fun i j => bigsum d (fun c => get a [i; c] * kconj (get a [j; c]))%K) then Ok (a, eye d) else Err LinAlgError.
Lemma sqr_gz_sound : sqr_sound sqr_gz (fun x => x).
Proof.
  intros a d (Sa & Wa & Hd & _). unfold sqr_gz. rewrite Sa. cbn [hd]. destruct (iso_tab d _) eqn:E; [left|right; reflexivity].
  exists a, (eye d). split; [reflexivity|]. split; [exact Sa|]. split; [exact Wa|]. split; [reflexivity|]. split; [apply (iso_tab_ok _ _ E)|].
  intros j Hj. rewrite get_eye by exact Hj. rewrite delta_eq. reflexivity.
Qed.
Definition gid : GZ -> GZ := fun x => x.
Example C43_ex :
  ranks_of (random_mpa qr_gz gid gid st 0 3 (LOne [2; 2]) (RkList [7; 3]) true false) = Some [4; 3] /\
  norm2_of (from_ok (random_mpa qr_gz gid gid st 0 3 (LOne [2; 2]) (RkList [7; 3]) true false) no_mpa) = g 1 0 /\
  (let z := from_ok (random_mpo qr_gz gid gid st2 0 2 2 (RkInt 2) true false false) no_mpa in
   mshape z = [[2; 2]; [2; 2]] /\ entry z (pairs [0; 1] [1; 1]) = kconj (entry z (pairs [1; 1] [0; 1])) /\ entry z (pairs [0; 1] [1; 1]) = g 176 (-24)) /\
  (let z := from_ok (random_mpdo qr_gz gid gid sqr_gz gid (g 1 0) st 2 (LInt 2) 2) no_mpa in
   ranks z = [2] /\ entry z (pairs [0; 1] [0; 1]) = g 1 0 /\ msum [2; 2] (fun cs => entry z (pairs cs cs)) = g 1 0) /\
  random_mpa qr_gz gid gid st 0 3 (LInt 2) (RkList [2; 2; 2]) false true = Err AssertionError.
Proof. vms. Qed.
(** Without [force_rank] a list with too many ranks is cut silently by [zip]. *)
Theorem C43_long_ranks_refuted : exists sites rank z, length (asked_ranks sites rank) + 1 <> sites /\
  random_mpa qr_gz gid gid st2 0 sites (LInt 2) rank false false = Ok z.
Proof. exists 3, (RkList [2; 2; 2; 2]), (from_ok (random_mpa qr_gz gid gid st2 0 3 (LInt 2) (RkList [2; 2; 2; 2]) false false) no_mpa). split; [cbn; lia|vmc]. Qed.
Print Assumptions C43_long_ranks_refuted.

(** ** C68: reproducibility.  The random factories use the given random state only. *)
(** [rng glob rs] is the state that [_randn] and [_zrandn] draw from. *)
Theorem C68_random_mpa (K : StarRing) (qr : nd K -> res (nd K * nd K)) (sqrt_ inv : K -> K) glob glob' s k sites ld rank normalized force :
  random_mpa qr sqrt_ inv (rng glob (Some s)) k sites ld rank normalized force = random_mpa qr sqrt_ inv (rng glob' (Some s)) k sites ld rank normalized force.
Proof. reflexivity. Qed.
Print Assumptions C68_random_mpa.
(** [random_local_ham] draws from the global state whatever it is given ... *)
Theorem C68_random_local_ham_ignored (K : StarRing) (qr : nd K -> res (nd K * nd K)) (sqrt_ inv : K -> K) glob rs rs' sites d w :
  random_local_ham qr sqrt_ inv glob rs sites d w = random_local_ham qr sqrt_ inv glob rs' sites d w.
Proof. exact (random_local_ham_state qr sqrt_ inv glob rs rs' sites d w). Qed.
Print Assumptions C68_random_local_ham_ignored.
(** ... so two calls with the same random state differ. *)
Theorem C68_random_local_ham_refuted : exists glob glob' s sites d w,
  entry_of (random_local_ham qr_gz gid gid glob (Some s) sites d w) (pairs [0; 0] [0; 0]) <>
  entry_of (random_local_ham qr_gz gid gid glob' (Some s) sites d w) (pairs [0; 0] [0; 0]) /\
  (exists z, random_local_ham qr_gz gid gid glob (Some s) sites d w = Ok z) /\ exists z, random_local_ham qr_gz gid gid glob' (Some s) sites d w = Ok z.
Proof.
  exists st2, (fun k => st2 (S k)), st, 2, 2, 1.
  split; [vm_compute; discriminate|]. split; eexists; vm_compute; reflexivity.
Qed.
Print Assumptions C68_random_local_ham_refuted.

(** ** C45: special-purpose routines *)
Theorem C45_inner_prod_mps (K : StarRing) (x y : ltens K) :
  mpa_ok x -> mpa_ok y -> one_leg (mshape x) -> mshape y = mshape x -> Forall (fun r => r = 1) (ranks x) ->
  inner_prod_mps x y = Ok (inner_of x y).
Proof. exact (inner_prod_mps_spec x y). Qed.
Print Assumptions C45_inner_prod_mps.
(** The first argument is not a product, or one of the arguments is not an MPS. *)
Theorem C45_inner_prod_error (K : StarRing) (x y : ltens K) :
  Exists (fun r => r <> 1) (ranks x) \/ Exists (fun d => d <> 1%Z) (ndims x) \/ Exists (fun d => d <> 1%Z) (ndims y) ->
  inner_prod_mps x y = Err AssertionError.
Proof.
  intros H. unfold inner_prod_mps. destruct (forallb (fun r => Nat.eqb r 1) (ranks x)) eqn:E1; [|reflexivity]. cbn [passert].
  destruct (forallb (fun d => (d =? 1)%Z) (ndims x)) eqn:E2; [|reflexivity]. cbn [passert].
  destruct (forallb (fun d => (d =? 1)%Z) (ndims y)) eqn:E3; [|reflexivity].
  rewrite forallb_forall in E1, E2, E3.
  destruct H as [H|[H|H]]; apply Exists_exists in H; destruct H as (r & Hr & Hn); exfalso; apply Hn;
    [apply Nat.eqb_eq; auto|apply Z.eqb_eq; auto|apply Z.eqb_eq; auto].
Qed.
Print Assumptions C45_inner_prod_error.
(** sumup for product tensors on two or more sites: [wsum] is the weighted sum of the
    entries ([PfSpecial]).  With [rank] at least the number of summands the result is that
    sum; for any rank the ranks are bounded, the form (n - 1, n) is true, and the result is
    an orthogonal projection of the sum. *)
Theorem C45_sumup (K : StarRing) (svdfunc : nd K -> nat -> res (nd K * list K * nd K)) (mpas : list (ltens K)) sh ws rank :
  tsvd_sound svdfunc -> tsvd_full svdfunc -> mpas <> [] -> Forall mpa_ok mpas -> Forall (fun x => mshape x = sh) mpas ->
  (forall w, ws = Some w -> length w = length mpas) ->
  Forall (fun x => Forall (fun r => r = 1) (ranks x)) mpas -> Forall (fun p => 0 < size p) sh -> 2 <= length sh -> 0 < rank ->
  outc (tsvd_fails svdfunc) (special_sumup svdfunc mpas rank ws) (fun z =>
    mpa_ok z /\ mshape z = sh /\ canonical_form z = (Z.of_nat (length sh) - 1, Z.of_nat (length sh))%Z /\ canon_true z /\
    Forall (fun r => r <= Nat.min rank (length mpas)) (ranks z) /\
    (length mpas <= rank -> forall is, valid_idx is sh -> entry z is = wsum mpas ws is) /\
    msums sh (fun is => kconj (wsum mpas ws is - entry z is) * (wsum mpas ws is - entry z is))%K =
    (msums sh (fun is => kconj (wsum mpas ws is) * wsum mpas ws is) - norm2_of z)%K).
Proof.
  intros H1 H2 H3 H4 H5 H6 H7 H8 H9 H10.
  eapply outc_weaken; [apply (special_sumup_spec svdfunc H1 H2 mpas sh ws H3 H4 H5 H6 H7 H8 H9 rank H10)|auto|].
  intros z (A1 & A2 & A3 & A4 & A5 & A6 & A7). do 6 (split; [assumption|]). exact (projection_dist sh (wsum mpas ws) z A2 A7).
Qed.
Print Assumptions C45_sumup.
(** One site: the plain weighted sum, for any ranks. *)
Theorem C45_sumup_one (K : StarRing) (svdfunc : nd K -> nat -> res (nd K * list K * nd K)) (mpas : list (ltens K)) sh ws rank :
  mpas <> [] -> Forall mpa_ok mpas -> Forall (fun x => mshape x = sh) mpas -> (forall w, ws = Some w -> length w = length mpas) -> length sh = 1 ->
  exists z, special_sumup svdfunc mpas rank ws = Ok z /\ mpa_ok z /\ mshape z = sh /\ canonical_form z = (0, 1)%Z /\
    forall is, valid_idx is sh -> entry z is = wsum mpas ws is.
Proof. intros H1 H2 H3 H4. exact (special_sumup_one svdfunc mpas sh ws H1 H2 H3 H4 rank). Qed.
Print Assumptions C45_sumup_one.
Theorem C45_sumup_error (K : StarRing) (svdfunc : nd K -> nat -> res (nd K * list K * nd K)) (x0 : ltens K) xs rank ws :
  special_sumup svdfunc [] rank ws = Err IndexError /\
  (Exists (fun x => llen x <> llen x0) xs \/ (exists w, ws = Some w /\ length w <> length (x0 :: xs)) \/
   (2 <= llen x0 /\ Exists (fun x => fold_right Nat.max 0 (ranks x) <> 1) (x0 :: xs)) ->
   special_sumup svdfunc (x0 :: xs) rank ws = Err AssertionError).
Proof. split; [reflexivity|exact (special_sumup_errors svdfunc x0 xs rank ws)]. Qed.
Print Assumptions C45_sumup_error.
(** The default [svdfunc] fulfils what is assumed. *)
Theorem C45_truncated_svd (K : StarRing) (svd : nd K -> res (nd K * list K * nd K)) :
  svd_sound svd -> tsvd_sound (truncated_svd svd) /\ tsvd_full (truncated_svd svd).
Proof. intros H. split; [exact (truncated_svd_sound svd H)|exact (truncated_svd_full svd H)]. Qed.
Print Assumptions C45_truncated_svd.
Definition ex_u1 : ltens GZ := mkLt [mk [1;2;1] [g 0 1; g 0 0]; mk [1;3;1] [g 2 0; g 0 0; g 0 0]; mk [1;2;1] [g 1 0; g 0 0]] 0 3.
Definition ex_u2 : ltens GZ := mkLt [mk [1;2;1] [g 0 0; g 1 0]; mk [1;3;1] [g 0 0; g 0 1; g 0 0]; mk [1;2;1] [g 0 0; g 5 0]] 0 3.
Example C45_ex :
  inner_prod_mps ex_u1 (from_ok (special_sumup tsvd_gz [ex_u1; ex_u2] 2 (Some [g 3 0; g 1 0])) no_mpa) = Ok (g 12 0) /\
  ranks_of (special_sumup tsvd_gz [ex_u1; ex_u2] 2 (Some [g 3 0; g 1 0])) = Some [2; 2] /\
  entry_of (special_sumup tsvd_gz [ex_u1; ex_u2] 2 (Some [g 3 0; g 1 0])) [[0]; [0]; [0]] = Some (g 0 6) /\
  entry_of (special_sumup tsvd_gz [ex_u1; ex_u2] 2 (Some [g 3 0; g 1 0])) [[1]; [1]; [1]] = Some (g 0 5) /\
  ranks_of (special_sumup tsvd_gz [ex_u1; ex_u2] 1 (Some [g 3 0; g 1 0])) = Some [1; 1] /\
  entry_of (special_sumup tsvd_gz [ex_u1; ex_u2] 1 (Some [g 3 0; g 1 0])) [[0]; [0]; [0]] = Some (g 0 6) /\
  entry_of (special_sumup tsvd_gz [ex_u1; ex_u2] 1 (Some [g 3 0; g 1 0])) [[1]; [1]; [1]] = Some (g 0 0).
Proof. vms. Qed.
(** Different lengths are not noticed by inner_prod_mps: the sites of the longer MPS are
    ignored. *)
Theorem C45_inner_prod_length_refuted : exists x y : ltens GZ, mpa_ok x /\ mpa_ok y /\ one_leg (mshape x) /\ one_leg (mshape y) /\
  llen x <> llen y /\ inner_prod_mps x y = Ok (g 0 2).
Proof.
  exists (mkLt [mk [1;2;1] [g 1 0; g 0 0]; mk [1;3;1] [g 1 0; g 0 0; g 0 0]] 0 2), ex_u1.
  split; [apply mpa_okb_ok; reflexivity|]. split; [apply mpa_okb_ok; reflexivity|]. split; [repeat constructor|]. split; [repeat constructor|]. split; [discriminate|vmc].
Qed.
Print Assumptions C45_inner_prod_length_refuted.

(** ** C46: dense helpers *)
(** [ds] and [es] are the row and column dimensions; [at_sites n S is cs] is the index with
    [cs] at the sites [S] and [is] at the others. *)
Theorem C46_partial_trace (K : StarRing) (S : list nat) (a : nd K) n ds es :
  ascending S -> (forall j, In j S -> j < n) ->
  shp a = ds ++ es -> ndwf a -> length ds = n -> length es = n -> gather S ds = gather S es ->
  exists r, partial_trace a (map Z.of_nat S) = Ok r /\ ndwf r /\ shp r = gather (freeaxes n S) ds ++ gather (freeaxes n S) es /\
    forall is js, inr is (gather (freeaxes n S) ds) -> inr js (gather (freeaxes n S) es) ->
      get r (is ++ js) = msum (gather S ds) (fun cs => get a (at_sites n S is cs ++ at_sites n S js cs)).
Proof. exact (partial_trace_spec S a n ds es). Qed.
Print Assumptions C46_partial_trace.
Theorem C46_partial_trace_error (K : StarRing) (a : nd K) l k : Nat.modulo (ndim a) 2 = 1 -> partial_trace a (l ++ [k]) = Err AssertionError.
Proof. intros H. unfold partial_trace. rewrite rev_unit. cbn [partial_trace_rev]. rewrite H. reflexivity. Qed.
Print Assumptions C46_partial_trace_error.
(** Factors with the same number [r] of axes; along each axis the indices of the factors
    are digits, the first factor being the most significant ([kron_idx]). *)
Theorem C46_mkron (K : StarRing) (a0 : nd K) args r : Forall (fun a => ndwf a /\ ndim a = r) (a0 :: args) ->
  let shs := map (@shp K) (a0 :: args) in
  exists z, mkron (a0 :: args) = Ok z /\ ndwf z /\ shp z = kron_shape r shs /\
    forall ix, Forall2 inr ix shs -> get z (kron_idx r shs ix) = kprod (zip2 (@get K) (a0 :: args) ix).
Proof. exact (mkron_spec a0 args r). Qed.
Print Assumptions C46_mkron.
(** Associativity, for any numbers of axes. *)
Theorem C46_kron_assoc (K : StarRing) (a b c : nd K) : kron (kron a b) c = kron a (kron b c).
Proof. exact (kron_assoc a b c). Qed.
Print Assumptions C46_kron_assoc.
Theorem C46_mkron_app (K : StarRing) (a b : nd K) l m : mkron l = Ok a -> mkron m = Ok b -> mkron (l ++ m) = mkron [a; b].
Proof. intros H1 H2. exact (mkron_app a b a l m H1 H2). Qed.
Print Assumptions C46_mkron_app.
Theorem C46_mkron_empty (K : StarRing) : mkron (K:=K) [] = Err IndexError.
Proof. reflexivity. Qed.
Print Assumptions C46_mkron_empty.
Theorem C46_matdot (K : StarRing) (a b : nd K) sa c sb : shp a = sa ++ [c] -> shp b = c :: sb ->
  exists z, matdot_api a b = Ok z /\ ndwf z /\ shp z = sa ++ sb /\
    forall i j, inr i sa -> inr j sb -> get z (i ++ j) = bigsum c (fun k => get a (i ++ [k]) * get b (k :: j))%K.
Proof.
  intros Ea Eb. unfold matdot_api, ndim. rewrite Ea, Eb. rewrite app_length, last_last. cbn [length hd].
  replace (length sa + 1 =? 0) with false by (symmetry; apply Nat.eqb_neq; lia). rewrite Nat.eqb_refl. cbn [Nat.eqb negb andb praise_unless].
  exists (matdot a b). split; [reflexivity|]. split; [apply wf_tensordot|]. split; [exact (shp_matdot a b sa c c sb Ea Eb)|].
  intros i j Hi Hj. exact (get_matdot a b sa c c sb i j Ea Eb Hi Hj).
Qed.
Print Assumptions C46_matdot.
Theorem C46_matdot_error (K : StarRing) (a b : nd K) sa c d sb : shp a = sa ++ [c] -> shp b = d :: sb -> c <> d -> matdot_api a b = Err ValueError.
Proof.
  intros Ea Eb H. unfold matdot_api, ndim. rewrite Ea, Eb. rewrite app_length, last_last. cbn [length hd].
  replace (length sa + 1 =? 0) with false by (symmetry; apply Nat.eqb_neq; lia). replace (c =? d) with false by (symmetry; apply Nat.eqb_neq; exact H). reflexivity.
Qed.
Print Assumptions C46_matdot_error.
Definition ex_t : nd GZ := tab [2; 3; 2; 2; 3; 2] (fun idx => g (Z.of_nat (ravel [2; 3; 2; 2; 3; 2] idx)) (Z.of_nat (nth 1 idx 0))).
Example C46_ex :
  (let r := from_ok (partial_trace ex_t [0; 2]%Z) (mk [] []) in shp r = [3; 3] /\ get r [2; 1] = g 382 8) /\
  (let r := from_ok (mkron [mk [2; 1] [g 1 0; g 2 0]; mk [1; 2] [g 0 1; g 3 0]; mk [2] [g 1 1; g 1 0]]) (mk [] []) in
   shp r = [2; 4] /\ get r [1; 2] = g 6 6) /\
  (let r := from_ok (matdot_api (mk [2; 2] [g 1 0; g 2 0; g 0 1; g 3 0]) (mk [2] [g 1 0; g 5 0])) (mk [] []) in shp r = [2] /\ get r [1] = g 15 1) /\
  (* the documented order matters: sites 2 and 0 are sites 0 and 2 in another order *)
  partial_trace ex_t [2; 0]%Z = Err ValueError.
Proof. vms. Qed.
