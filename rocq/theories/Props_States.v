(** Property theorems: MPS, PMPS and MPO representations of states (mpsmpo.py).

    A PMPS has a system leg and an ancilla leg on every site ([two_legs]); [leg1]
    and [leg2] list their dimensions and [pairs is cs] is the index with system
    indices [is] and ancilla indices [cs].  Its density matrix is
    [dmat x is js = sum_cs entry x (is, cs) * conj (entry x (js, cs))]. *)
From Verif Require Import Oracles PfStates2 PfRedMode PfErrors4.

(** ** C38: reductions_mpo.  The windows [ws] are in any order and may repeat.
    [is_ptrace x (s, e) z] ([PfRedMpo]): [z] has the sites [s .. e-1] of [x] and its
    entries are those of [x] summed over equal indices of all other sites. *)
Theorem C38_reductions_mpo (K : StarRing) (x : ltens K) (ws : list (nat * nat)) :
  mpa_ok x -> two_legs (mshape x) -> Forall (fun w => fst w < snd w <= llen x) ws ->
  exists zs, reductions_mpo x None (Some (map Z.of_nat (map fst ws))) (Some (map Z.of_nat (map snd ws))) = Ok zs /\
    Forall2 (is_ptrace x) ws zs.
Proof. intros Hx H2 Hw. apply reductions_mpo_spec; auto. apply windows_stops. Qed.
Print Assumptions C38_reductions_mpo.
(** All windows of one width, and a width with given first sites. *)
Theorem C38_width (K : StarRing) (x : ltens K) w : mpa_ok x -> two_legs (mshape x) -> 0 < w <= llen x ->
  exists zs, reductions_mpo x (Some (Z.of_nat w)) None None = Ok zs /\
    Forall2 (is_ptrace x) (map (fun s => (s, s + w)) (seq 0 (llen x - w + 1))) zs.
Proof.
  intros Hx H2 Hw. apply reductions_mpo_spec; auto; [apply windows_width; exact Hw|].
  apply Forall_forall. intros p Hp. apply in_map_iff in Hp. destruct Hp as (s & <- & Hs). apply in_seq in Hs. unfold win_ok. cbn. lia.
Qed.
Print Assumptions C38_width.
Theorem C38_width_starts (K : StarRing) (x : ltens K) w ss : mpa_ok x -> two_legs (mshape x) ->
  0 < w -> Forall (fun s => s + w <= llen x) ss ->
  exists zs, reductions_mpo x (Some (Z.of_nat w)) (Some (map Z.of_nat ss)) None = Ok zs /\
    Forall2 (is_ptrace x) (map (fun s => (s, s + w)) ss) zs.
Proof.
  intros Hx H2 Hw Hs. apply reductions_mpo_spec; auto; [apply windows_starts|].
  apply Forall_forall. intros p Hp. apply in_map_iff in Hp. destruct Hp as (s & <- & Hi). rewrite Forall_forall in Hs. specialize (Hs s Hi).
  unfold win_ok. cbn. lia.
Qed.
Print Assumptions C38_width_starts.
(** Not an MPO, or arguments that do not fit together. *)
Theorem C38_error (K : StarRing) (x : ltens K) width starts stops :
  (mpa_ok x -> ~ two_legs (mshape x) -> forall ws, check_reductions_args (llen x) width starts stops = Ok ws ->
     reductions_mpo x width starts stops = Err AssertionError) /\
  (match stops, width, starts with None, None, _ => True | Some _, Some _, _ => True | Some _, None, None => True | _, _, _ => False end ->
     reductions_mpo x width starts stops = Err AssertionError).
Proof.
  split; [intros Hx H2 ws; apply reductions_mpo_error; auto|].
  destruct stops, width, starts; cbn; tauto.
Qed.
Print Assumptions C38_error.
Example C38_ex : mpa_ok ex_o /\ two_legs (mshape ex_o) /\
  let z := nth 2 (from_ok (reductions_mpo ex_o None (Some [1; 0; 1]%Z) (Some [3; 2; 2]%Z)) []) no_mpa in
  mshape z = [[2; 2]] /\
  entry z [[0; 1]] = bigsum 2 (fun k => bigsum 2 (fun m => entry ex_o [[k; k]; [0; 1]; [m; m]])) /\ entry z [[0; 1]] = g 16 12.
Proof. split; [apply ex_ok; cbn; auto|]. split; [repeat constructor|]. vms. Qed.
(** Windows outside the chain are not refused with a clear error: a negative first
    site recurses until RecursionError. *)
Theorem C38_negative_start_refuted :
  reductions_mpo ex_o None (Some [(-1)%Z]) (Some [3%Z]) = Err RecursionError /\
  reductions_mpo ex_o None (Some [3%Z]) (Some [3%Z]) = Err IndexError /\
  reductions_mpo ex_o None (Some [0%Z]) (Some [4%Z]) = Err RecursionError.
Proof. vms. Qed.
Print Assumptions C38_negative_start_refuted.

(** ** C39: reductions_pmps.  [is_reduction x (s, e) z] ([PfRedPmps]): [z] is a PMPS
    on the sites [s .. e-1] whose density matrix is the one of [x] summed over equal
    system indices of all other sites ([dm_reduced]).  [p = (yielded, argument afterwards)]. *)
Theorem C39_reductions_pmps (K : StarRing) (qr : nd K -> res (nd K * nd K)) (x : ltens K) (ws : list (nat * nat)) :
  qr_sound qr -> mpa_pos x -> cform_wk x -> canon_true x -> two_legs (mshape x) ->
  Forall (fun w => fst w < snd w <= llen x) ws ->
  outc (qr_fails qr) (reductions_pmps qr x None (Some (map Z.of_nat (map fst ws))) (Some (map Z.of_nat (map snd ws))))
    (fun p => Forall2 (is_reduction x) ws (fst p) /\
       mpa_pos (snd p) /\ mshape (snd p) = mshape x /\ to_array (snd p) = to_array x /\ canon_true (snd p) /\ cform_wk (snd p)).
Proof.
  intros Hq Hx Hc Ht H2 Hw. unfold reductions_pmps. rewrite windows_stops. cbn [bind].
  eapply outc_weaken; [apply (red_pmps_loop_spec qr Hq ws x); auto|auto|].
  intros [zs y] (A & S & C). cbn [fst snd] in *. split; [exact A|]. destruct (state_after x y Hx Ht S) as (A1 & A2 & A3 & A4). auto.
Qed.
Print Assumptions C39_reductions_pmps.
(** A first site of the window without exactly two physical legs is refused. *)
Theorem C39_pmps_legs (K : StarRing) qr (x : ltens K) a b : qr_sound qr -> mpa_pos x -> cform_wk x -> a < b <= llen x -> length (nth a (mshape x) []) <> 2 ->
  reductions_pmps qr x None (Some [Z.of_nat a]) (Some [Z.of_nat b]) = Err ValueError \/
  (reductions_pmps qr x None (Some [Z.of_nat a]) (Some [Z.of_nat b]) = Err LinAlgError /\ qr_fails qr).
Proof. exact (reductions_pmps_legs qr x a b). Qed.
Print Assumptions C39_pmps_legs.
Theorem C39_width (K : StarRing) (qr : nd K -> res (nd K * nd K)) (x : ltens K) w :
  qr_sound qr -> mpa_pos x -> cform_wk x -> canon_true x -> two_legs (mshape x) -> 0 < w <= llen x ->
  outc (qr_fails qr) (reductions_pmps qr x (Some (Z.of_nat w)) None None)
    (fun p => Forall2 (is_reduction x) (map (fun s => (s, s + w)) (seq 0 (llen x - w + 1))) (fst p) /\
       mpa_pos (snd p) /\ mshape (snd p) = mshape x /\ to_array (snd p) = to_array x /\ canon_true (snd p) /\ cform_wk (snd p)).
Proof.
  intros Hq Hx Hc Ht H2 Hw. unfold reductions_pmps. rewrite windows_width by exact Hw. cbn [bind].
  eapply outc_weaken; [apply (red_pmps_loop_spec qr Hq _ x); auto|auto|].
  - apply Forall_forall. intros p Hp. apply in_map_iff in Hp. destruct Hp as (s & <- & Hs). apply in_seq in Hs. unfold win_ok. cbn. lia.
  - intros [zs y] (A & S & C). cbn [fst snd] in *. split; [exact A|]. destruct (state_after x y Hx Ht S) as (A1 & A2 & A3 & A4). auto.
Qed.
Print Assumptions C39_width.
(** What a reduction is as an MPO, and that it agrees with tracing out the MPO of [x]. *)
Theorem C39_to_mpo (K : StarRing) (x z : ltens K) s e : is_reduction x (s, e) z ->
  exists m, pmps_to_mpo z = Ok m /\ mpa_ok m /\ mshape m = map (fun d => [d; d]) (firstn (e - s) (skipn s (leg1 (mshape x)))) /\
    forall is js, inr is (leg1 (mshape z)) -> inr js (leg1 (mshape z)) -> entry m (pairs is js) = dm_reduced x s e is js.
Proof. exact (reduction_to_mpo x z s e). Qed.
Print Assumptions C39_to_mpo.
Theorem C39_agrees_with_mpo (K : StarRing) (x z M m' : ltens K) s e : mpa_ok x -> two_legs (mshape x) -> s < e <= llen x ->
  is_reduction x (s, e) z -> pmps_to_mpo x = Ok M -> reductions_mpo M None (Some [Z.of_nat s]) (Some [Z.of_nat e]) = Ok [m'] ->
  exists m, pmps_to_mpo z = Ok m /\ mshape m = mshape m' /\ to_array m = to_array m'.
Proof. exact (reduction_agrees x z M m' s e). Qed.
Print Assumptions C39_agrees_with_mpo.
(** Reductions of an MPS. *)
Theorem C39_mps_as_mpo (K : StarRing) (qr : nd K -> res (nd K * nd K)) (x : ltens K) (ws : list (nat * nat)) :
  qr_sound qr -> mpa_pos x -> one_leg (mshape x) -> Forall (fun w => fst w < snd w <= llen x) ws ->
  outc (qr_fails qr) (reductions_mps_as_mpo qr x None (Some (map Z.of_nat (map fst ws))) (Some (map Z.of_nat (map snd ws))))
    (fun ms => Forall2 (mps_reduction x) ws ms).
Proof. intros Hq Hx H1 Hw. exact (mps_as_mpo_spec qr Hq x ws Hx H1 Hw). Qed.
Print Assumptions C39_mps_as_mpo.
(** A PMPS with entangled sites. *)
Definition ex_p : ltens GZ :=
  mkLt [mk [1;2;2;2] [g 1 0; g 0 0; g 0 0; g 0 0;  g 0 0; g 0 1; g 0 0; g 0 0];
        mk [2;2;1;2] [g 1 1; g 0 0; g 0 0; g 0 0;   g 0 0; g 0 0; g 0 0; g 3 0];
        mk [2;3;2;1] [g 1 0; g 0 0; g 0 0; g 0 0; g 0 0; g 0 0;  g 0 0; g 0 0; g 0 0; g 0 0; g 2 0; g 0 0]] 0 3.
Lemma ex_p_ok : mpa_pos ex_p /\ cform_wk ex_p /\ canon_true ex_p /\ two_legs (mshape ex_p).
Proof.
  split; [split; [apply mpa_okb_ok; reflexivity|repeat constructor]|]. split; [unfold cform_wk; cbn; lia|].
  split; [apply canon_trueb_ok; reflexivity|repeat constructor].
Qed.
Example C39_ex :
  let p := from_ok (reductions_pmps qr_gz ex_p None (Some [1; 0; 1]%Z) (Some [3; 2; 2]%Z)) ([], no_mpa) in
  map mshape (fst p) = [[[2; 2]; [3; 2]]; [[2; 2]; [2; 2]]; [[2; 4]]] /\ to_array (snd p) = to_array ex_p /\
  canonical_form (snd p) = (1, 2)%Z /\ dmat ex_p [0; 0; 0] [1; 1; 2] = g 6 (-6) /\
  dmat (nth 0 (fst p) no_mpa) [1; 2] [1; 2] = g 36 0 /\ dm_reduced ex_p 1 3 [1; 2] [1; 2] = g 36 0.
Proof. vms. Qed.
(** The dispatcher [reductions]: for a state in the mode [m] the results, read in the
    mode that is returned with them, are the partial traces of the state.  [legs_of],
    [dm_of] and [is_reduced] ([PfRedMode]) give the legs and the density matrix of a
    state described in a mode and say that a state is such a partial trace. *)
Theorem C39_dispatch (K : StarRing) (qr : nd K -> res (nd K * nd K)) (x : ltens K) m ds (ws : list (nat * nat)) :
  qr_sound qr -> mpa_pos x -> cform_wk x -> canon_true x -> legs_of m ds (mshape x) ->
  Forall (fun w => fst w < snd w <= llen x) ws ->
  outc (qr_fails qr) (reductions qr x m None (Some (map Z.of_nat (map fst ws))) (Some (map Z.of_nat (map snd ws))))
    (fun p => Forall2 (is_reduced (snd p) ds (dm_of m x)) ws (fst p)).
Proof. intros Hq Hx Hc Ht Hl Hw. exact (reductions_spec qr Hq x m ds ws Hx Hc Ht Hl Hw). Qed.
Print Assumptions C39_dispatch.
Theorem C39_dispatch_mode (K : StarRing) (qr : nd K -> res (nd K * nd K)) (x : ltens K) m width starts stops :
  (forall p, reductions qr x m width starts stops = Ok p -> snd p = match m with MMpdo => MMpdo | _ => MPmps end) /\
  reductions qr x MOther width starts stops = Err ValueError.
Proof. split; [intros p; exact (reductions_mode qr x m width starts stops p)|reflexivity]. Qed.
Print Assumptions C39_dispatch_mode.
(** A GHZ-like MPS: its reduction is a PMPS, a mixed state. *)
Example C39_dispatch_ex : mpa_pos ex_ghz /\ cform_wk ex_ghz /\ canon_true ex_ghz /\ legs_of MMps [2; 2; 2] (mshape ex_ghz) /\
  let p := from_ok (reductions qr_gz ex_ghz MMps None (Some [1]%Z) (Some [3]%Z)) ([], MOther) in
  snd p = MPmps /\ map mshape (fst p) = [[[2; 2]; [2; 1]]] /\
  dm_of MPmps (nth 0 (fst p) no_mpa) [0; 0] [0; 0] = g 9 0 /\ dm_of MPmps (nth 0 (fst p) no_mpa) [0; 0] [1; 1] = g 0 0 /\
  dm_of MMps ex_ghz [0; 0; 0] [1; 1; 1] = g 0 (-6).
Proof.
  split; [split; [apply mpa_okb_ok; reflexivity|repeat constructor]|]. split; [unfold cform_wk; cbn; lia|].
  split; [apply canon_trueb_ok; reflexivity|]. split; [reflexivity|]. vms.
Qed.
(** A negative first site is accepted and gives a chain with sites twice. *)
Theorem C39_negative_start_refuted : exists z y,
  reductions_pmps qr_gz ex_p None (Some [(-1)%Z]) (Some [3%Z]) = Ok ([z], y) /\ llen ex_p = 3 /\ mshape z = [[3; 4]; [2; 2]; [2; 1]; [3; 2]].
Proof.
  exists (hd no_mpa (fst (from_ok (reductions_pmps qr_gz ex_p None (Some [(-1)%Z]) (Some [3%Z])) ([], no_mpa)))),
         (snd (from_ok (reductions_pmps qr_gz ex_p None (Some [(-1)%Z]) (Some [3%Z])) ([], no_mpa))).
  vms.
Qed.
Print Assumptions C39_negative_start_refuted.

(** ** C40: conversions *)
Theorem C40_pmps_to_mpo (K : StarRing) (x : ltens K) : mpa_ok x -> two_legs (mshape x) ->
  exists z, pmps_to_mpo x = Ok z /\ mpa_ok z /\ mshape z = map (fun d => [d; d]) (leg1 (mshape x)) /\
    ranks z = map (fun r => r * r) (ranks x) /\ canonical_form z = (0%Z, Z.of_nat (llen x)) /\
    forall is js, inr is (leg1 (mshape x)) -> inr js (leg1 (mshape x)) ->
      entry z (pairs is js) = msum (leg2 (mshape x)) (fun cs => entry x (pairs is cs) * kconj (entry x (pairs js cs)))%K.
Proof. exact (pmps_to_mpo_spec x). Qed.
Print Assumptions C40_pmps_to_mpo.
Theorem C40_mps_to_pmps (K : StarRing) (x : ltens K) : mpa_ok x -> one_leg (mshape x) ->
  exists z, mps_to_pmps x = Ok z /\ mpa_ok z /\ mshape z = map (fun d => [d; 1]) (leg1 (mshape x)) /\
    ranks z = ranks x /\ canonical_form z = (0%Z, Z.of_nat (llen x)) /\
    (forall is cs, inr is (leg1 (mshape x)) -> inr cs (map (fun _ => 1) (mshape x)) ->
       entry z (pairs is cs) = entry x (singles is)) /\
    (mpa_pos x -> mpa_pos z).
Proof. exact (mps_to_pmps_spec x). Qed.
Print Assumptions C40_mps_to_pmps.
Theorem C40_pmps_to_mps (K : StarRing) (x : ltens K) :
  mpa_ok x -> cform_ok x -> two_legs (mshape x) -> Forall (fun c => c = 1) (leg2 (mshape x)) ->
  exists z, pmps_to_mps x = Ok z /\ mpa_ok z /\ mshape z = singles (leg1 (mshape x)) /\
    ranks z = ranks x /\ canonical_form z = canonical_form x /\ (canon_true x -> canon_true z) /\
    (forall is, inr is (leg1 (mshape x)) -> entry z (singles is) = entry x (pairs is (map (fun _ => 0) is))).
Proof. exact (pmps_to_mps_spec x). Qed.
Print Assumptions C40_pmps_to_mps.
Theorem C40_roundtrip (K : StarRing) (x : ltens K) : mpa_ok x -> one_leg (mshape x) ->
  exists p z, mps_to_pmps x = Ok p /\ pmps_to_mps p = Ok z /\ mshape z = mshape x /\ ranks z = ranks x /\ to_array z = to_array x.
Proof. exact (mps_pmps_roundtrip x). Qed.
Print Assumptions C40_roundtrip.
Theorem C40_mps_to_mpo (K : StarRing) (x : ltens K) : mpa_ok x -> one_leg (mshape x) ->
  exists z, mps_to_mpo x = Ok z /\ mpa_ok z /\ mshape z = map (fun d => [d; d]) (leg1 (mshape x)) /\
    ranks z = map (fun r => r * r) (ranks x) /\
    forall is js, inr is (leg1 (mshape x)) -> inr js (leg1 (mshape x)) ->
      entry z (pairs is js) = (entry x (singles is) * kconj (entry x (singles js)))%K.
Proof. exact (mps_to_mpo_spec x). Qed.
Print Assumptions C40_mps_to_mpo.
Theorem C40_errors (K : StarRing) (x : ltens K) : mpa_ok x ->
  (~ one_leg (mshape x) -> mps_to_pmps x = Err AssertionError /\ mps_to_mpo x = Err AssertionError) /\
  (~ (two_legs (mshape x) /\ Forall (fun c => c = 1) (leg2 (mshape x))) -> pmps_to_mps x = Err AssertionError).
Proof.
  intros Hx. split; [|apply pmps_to_mps_error; exact Hx]. intros H. pose proof (mps_to_pmps_error x Hx H) as E.
  split; [exact E|]. unfold mps_to_mpo. rewrite E. reflexivity.
Qed.
Print Assumptions C40_errors.
Example C40_ex : one_leg (mshape ex_s) /\ entry ex_s [[1];[0];[1]] = g 8 8 /\ entry ex_s [[0];[1];[1]] = g 2 8 /\
  entry_of (mps_to_mpo ex_s) (pairs [1;0;1] [0;1;1]) = Some (g 80 (-48)) /\
  entry_of (mps_to_pmps ex_s) (pairs [1;0;1] [0;0;0]) = Some (g 8 8) /\
  mps_to_pmps ex_o = Err AssertionError /\ pmps_to_mps ex_o = Err AssertionError.
Proof. split; [repeat constructor|vms]. Qed.

(** ** C41: pmps_dm_to_array and pmps_reduction.  [bigd] keeps the dimensions larger
    than one, [bigi] the indices of these sites. *)
Theorem C41_dm_to_array (K : StarRing) (x : ltens K) : mpa_pos x -> two_legs (mshape x) ->
  exists a, pmps_dm_to_array x false = Ok a /\ ndwf a /\ shp a = flat_map (fun d => [d; d]) (bigd (leg1 (mshape x))) /\
    forall is js, inr is (leg1 (mshape x)) -> inr js (leg1 (mshape x)) ->
      get a (concat (pairs (bigi (leg1 (mshape x)) is) (bigi (leg1 (mshape x)) js))) = dmat x is js.
Proof. exact (pmps_dm_to_array_spec x). Qed.
Print Assumptions C41_dm_to_array.
Theorem C41_dm_to_array_global (K : StarRing) (x : ltens K) D : mpa_pos x -> two_legs (mshape x) ->
  bigd (leg1 (mshape x)) <> [] -> Forall (fun d => d = D) (bigd (leg1 (mshape x))) ->
  exists a, pmps_dm_to_array x true = Ok a /\ ndwf a /\ shp a = bigd (leg1 (mshape x)) ++ bigd (leg1 (mshape x)) /\
    forall is js, inr is (leg1 (mshape x)) -> inr js (leg1 (mshape x)) ->
      get a (bigi (leg1 (mshape x)) is ++ bigi (leg1 (mshape x)) js) = dmat x is js.
Proof. exact (pmps_dm_to_array_global x D). Qed.
Print Assumptions C41_dm_to_array_global.
Theorem C41_dm_to_array_global_error (K : StarRing) (x : ltens K) : mpa_pos x -> two_legs (mshape x) ->
  (bigd (leg1 (mshape x)) = [] \/ exists d d', In d (bigd (leg1 (mshape x))) /\ In d' (bigd (leg1 (mshape x))) /\ d <> d') ->
  pmps_dm_to_array x true = Err AssertionError.
Proof. exact (pmps_dm_to_array_global_error x). Qed.
Print Assumptions C41_dm_to_array_global_error.
(** [sup] lists the kept sites (in any order, without repetition), from [s] to [m];
    in the result the other sites in between have system dimension one
    ([is_sup_reduction], [PfRedSup]). *)
Theorem C41_reduction (K : StarRing) (qr : nd K -> res (nd K * nd K)) (x : ltens K) (sup : list nat) s m :
  qr_sound qr -> mpa_pos x -> cform_wk x -> canon_true x -> two_legs (mshape x) ->
  NoDup sup -> In s sup -> In m sup -> (forall k, In k sup -> s <= k <= m) -> m < llen x ->
  outc (qr_fails qr) (pmps_reduction qr x (map Z.of_nat sup))
    (fun p => is_sup_reduction x sup s (S m) (fst p) /\
       mpa_pos (snd p) /\ mshape (snd p) = mshape x /\ to_array (snd p) = to_array x /\ canon_true (snd p) /\ cform_wk (snd p)).
Proof.
  intros Hq Hx Hc Ht H2 N Hs Hm Hr Hl. eapply outc_weaken; [apply (pmps_reduction_spec qr Hq x sup s m); auto|auto|].
  intros [z y] (A & S & C). cbn [fst snd] in *. split; [exact A|]. destruct (state_after x y Hx Ht S) as (A1 & A2 & A3 & A4). auto.
Qed.
Print Assumptions C41_reduction.
Theorem C41_reduction_error (K : StarRing) (qr : nd K -> res (nd K * nd K)) (x : ltens K) (sup : list Z) :
  (sup = [] \/ exists k, In k sup /\ (k < 0 \/ Z.of_nat (llen x) <= k)%Z) -> pmps_reduction qr x sup = Err AssertionError.
Proof.
  unfold pmps_reduction. intros [->|(k & Hk & Hr)]; [reflexivity|].
  destruct sup as [|k0 sup]; [destruct Hk|]. cbn [length Nat.eqb negb passert].
  replace (forallb _ (k0 :: sup)) with false; [reflexivity|]. symmetry. apply not_true_is_false. intros E.
  rewrite forallb_forall in E. apply E in Hk. apply andb_true_iff in Hk. rewrite Z.leb_le, Z.ltb_lt in Hk. lia.
Qed.
Print Assumptions C41_reduction_error.
Example C41_ex : let a := from_ok (pmps_dm_to_array ex_p false) (mk [] []) in
  shp a = [2; 2; 2; 2; 3; 3] /\ get a (concat (pairs [0; 0; 0] [1; 1; 2])) = g 6 (-6) /\
  pmps_dm_to_array ex_p true = Err AssertionError /\
  let p := from_ok (pmps_reduction qr_gz ex_p [2; 0]%Z) (no_mpa, no_mpa) in
  mshape (fst p) = [[2; 2]; [1; 2]; [3; 2]] /\ dmat (fst p) [1; 0; 2] [1; 0; 2] = g 36 0 /\ dmat (fst p) [0; 0; 0] [1; 0; 2] = g 0 0 /\
  get (from_ok (pmps_dm_to_array (fst p) false) (mk [] [])) [1; 1; 2; 2] = g 36 0.
Proof. vms. Qed.
(** A repeated site in the support makes the length test pass: nothing is traced out. *)
Theorem C41_duplicate_support_refuted : exists z y, pmps_reduction qr_gz ex_p [0; 0; 2]%Z = Ok (z, y) /\
  leg1 (mshape z) = [2; 2; 3] /\ leg1 (mshape (fst (from_ok (pmps_reduction qr_gz ex_p [0; 2]%Z) (no_mpa, no_mpa)))) = [2; 1; 3].
Proof.
  exists (fst (from_ok (pmps_reduction qr_gz ex_p [0; 0; 2]%Z) (no_mpa, no_mpa))),
         (snd (from_ok (pmps_reduction qr_gz ex_p [0; 0; 2]%Z) (no_mpa, no_mpa))).
  vms.
Qed.
Print Assumptions C41_duplicate_support_refuted.
