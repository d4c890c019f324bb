(** Property theorems: cyclic nearest-neighbour Hamiltonians (utils/physics.py) and
    storage (MPArray.dump, MPArray.load). *)
From Coq Require Import String.
From Verif Require Import Oracles PfPhysics PfStore PfErrors4.
Open Scope nat_scope.

(** ** C59: cyclic Hamiltonians *)
(** [elem x i1 i2 j1 j2] is the matrix element of a two-site operator and
    [on_pair f a b is js] that of the operator on sites [a] and [b] of the chain
    (first factor on [a]) with identities elsewhere ([PfPhysics]). *)
Theorem C59_mpo_cH (K : StarRing) (terms : list (ltens K)) d N : length terms = N -> 2 <= N ->
  Forall mpa_ok terms -> Forall (fun x => mshape x = [[d; d]; [d; d]]) terms ->
  exists z, mpo_cH terms = Ok z /\ mpa_ok z /\ mshape z = repeat [d; d] N /\ canonical_form z = (0%Z, Z.of_nat N) /\
    forall is js, inr is (repeat d N) -> inr js (repeat d N) ->
      entry z (pairs is js) = (bigsum (N - 1) (fun s => on_pair (elem (nth s terms (mkLt [] 0 0))) s (S s) is js) +
                               on_pair (elem (last terms (mkLt [] 0 0))) O (N - 1) is js)%K.
Proof. exact (mpo_cH_spec terms d N). Qed.
Print Assumptions C59_mpo_cH.
(** Terms given as MPO or as matrix; the last one must be an MPO. *)
Theorem C59_sparse_cH (K : StarRing) (front : list (term K)) (cyc : ltens K) d N : length front = N - 1 -> 2 <= N ->
  Forall (term_ok d) front -> mpa_ok cyc -> mshape cyc = [[d; d]; [d; d]] ->
  exists h, sparse_cH (front ++ [TMpo cyc]) d = Ok (Some h) /\ ndwf h /\ shp h = [Nat.pow d N; Nat.pow d N] /\
    forall is js, inr is (repeat d N) -> inr js (repeat d N) ->
      get h [ravel (repeat d N) is; ravel (repeat d N) js] =
        (bigsum (N - 1) (fun s => on_pair (term_elem d (nth s front (TMat dummy))) s (S s) is js) + on_pair (elem cyc) O (N - 1) is js)%K.
Proof. exact (sparse_cH_spec front cyc d N). Qed.
Print Assumptions C59_sparse_cH.
Theorem C59_agree (K : StarRing) (terms : list (ltens K)) d N : length terms = N -> 2 <= N ->
  Forall mpa_ok terms -> Forall (fun x => mshape x = [[d; d]; [d; d]]) terms ->
  exists z h, mpo_cH terms = Ok z /\ sparse_cH (map (@TMpo K) terms) d = Ok (Some h) /\
    forall is js, inr is (repeat d N) -> inr js (repeat d N) ->
      get h [ravel (repeat d N) is; ravel (repeat d N) js] = entry z (pairs is js).
Proof.
  intros L HN H1 H2. destruct (mpo_cH_spec terms d N L HN H1 H2) as (z & E & _ & _ & _ & Ez).
  destruct (exists_last (l := terms)) as (front & cyc & ->); [intros ->; cbn in L; lia|].
  rewrite app_length in L. cbn [length] in L. apply Forall_app in H1. apply Forall_app in H2. destruct H1 as [H1 H1c], H2 as [H2 H2c]. inversion H1c; inversion H2c; subst.
  destruct (sparse_cH_spec (map (@TMpo K) front) cyc d (length front + 1)) as (h & E2 & _ & _ & Eh); [rewrite map_length; lia|lia| |assumption|assumption|].
  { rewrite Forall_forall in *. intros t Ht. apply in_map_iff in Ht. destruct Ht as (x & <- & Hx). split; auto. }
  exists z, h. split; [exact E|]. split; [rewrite map_app; exact E2|]. intros is js Hi Hj. rewrite Eh, Ez by assumption. rewrite last_last. f_equal.
  apply bigsum_ext. intros s Hs. rewrite app_nth1 by lia. rewrite (nth_indep _ _ (TMpo (mkLt [] 0 0))) by (rewrite map_length; lia). rewrite map_nth. reflexivity.
Qed.
Print Assumptions C59_agree.
(** The documentation of [cXY_local_terms] numbers the terms: term [i] acts on the spins
    [i] and [i + 1], and spin [N] is spin [0].  Both functions place the last term the
    other way round.  [cyclic_sum terms is js] is the documented sum, with
    [on_pair (elem (nth s terms)) s ((s + 1) mod N)] for [s < N]. *)
(** For terms that are symmetric under the exchange of the two sites there is no
    difference … *)
Theorem C59_symmetric (K : StarRing) (terms : list (ltens K)) d N : length terms = N -> 2 <= N ->
  Forall mpa_ok terms -> Forall (fun x => mshape x = [[d; d]; [d; d]]) terms ->
  (forall i1 i2 j1 j2, i1 < d -> i2 < d -> j1 < d -> j2 < d ->
     elem (last terms (mkLt [] 0 0)) i1 i2 j1 j2 = elem (last terms (mkLt [] 0 0)) i2 i1 j2 j1) ->
  exists z, mpo_cH terms = Ok z /\ forall is js, inr is (repeat d N) -> inr js (repeat d N) -> entry z (pairs is js) = cyclic_sum terms is js.
Proof.
  intros L HN H1 H2 Hs. destruct (mpo_cH_spec terms d N L HN H1 H2) as (z & E & _ & _ & _ & Ez). exists z. split; [exact E|].
  intros is js Hi Hj. rewrite Ez by assumption. exact (cyclic_sum_sym terms d N is js L HN Hs Hi Hj).
Qed.
Print Assumptions C59_symmetric.
(** … in particular none for the terms of the XY model. *)
Theorem C59_cXY (K : StarRing) (ki c1 c2 : K) N : 2 <= N ->
  exists terms z, cXY_local_terms N ki c1 c2 = Ok terms /\ length terms = N /\ mpo_cH terms = Ok z /\
    (forall k i1 i2 j1 j2, k < N -> i1 < 2 -> i2 < 2 -> j1 < 2 -> j2 < 2 ->
       elem (nth k terms (mkLt [] 0 0)) i1 i2 j1 j2 = (c1 * (xx i1 j1 * xx i2 j2) + c2 * (yy ki i1 j1 * yy ki i2 j2))%K) /\
    forall is js, inr is (repeat 2 N) -> inr js (repeat 2 N) -> entry z (pairs is js) = cyclic_sum terms is js.
Proof.
  intros HN. destruct (cXY_term_spec ki c1 c2) as (t & Et & Ht & St & Ee). unfold cXY_local_terms. rewrite Et. cbn [bind].
  assert (Hl : last (repeat t N) (mkLt [] 0 0) = t) by (destruct N as [|N]; [lia|]; clear; induction N as [|N IH]; [reflexivity|exact IH]).
  destruct (C59_symmetric K (repeat t N) 2 N) as (z & E & Ez); [apply repeat_length|exact HN| | | |].
  - apply Forall_forall. intros x Hx. apply repeat_spec in Hx. subst. exact Ht.
  - apply Forall_forall. intros x Hx. apply repeat_spec in Hx. subst. exact St.
  - rewrite Hl. intros i1 i2 j1 j2 Q1 Q2 Q3 Q4. rewrite !Ee by assumption. rewrite (Rmul_comm (k_ring K) (xx i1 j1)), (Rmul_comm (k_ring K) (yy ki i1 j1)). reflexivity.
  - exists (repeat t N), z. split; [reflexivity|]. split; [apply repeat_length|]. split; [exact E|]. split; [|exact Ez].
    intros k i1 i2 j1 j2 Hk. rewrite nth_rep by exact Hk. apply Ee.
Qed.
Print Assumptions C59_cXY.
(** A term that maps |01> to |10> and nothing else. *)
Definition ex_hop : ltens GZ :=
  mkLt [mk [1; 2; 2; 1] [g 0 0; g 0 0; g 1 0; g 0 0]; mk [1; 2; 2; 1] [g 0 0; g 1 0; g 0 0; g 0 0]] 0 2.
Theorem C59_orientation_refuted : exists (terms : list (ltens GZ)) (is js : list nat) z,
  Forall mpa_ok terms /\ Forall (fun x => mshape x = [[2; 2]; [2; 2]]) terms /\ length terms = 3 /\
  inr is [2; 2; 2] /\ inr js [2; 2; 2] /\ mpo_cH terms = Ok z /\ entry z (pairs is js) <> cyclic_sum terms is js.
Proof.
  exists [ex_hop; ex_hop; ex_hop], [1; 0; 0], [0; 0; 1], (from_ok (mpo_cH [ex_hop; ex_hop; ex_hop]) no_mpa).
  split; [repeat constructor; apply mpa_okb_ok; reflexivity|]. split; [repeat constructor|]. split; [reflexivity|]. split; [repeat constructor|]. split; [repeat constructor|].
  split; [vm_compute; reflexivity|]. vm_compute. discriminate.
Qed.
Print Assumptions C59_orientation_refuted.
Theorem C59_errors (K : StarRing) d :
  mpo_cH (K:=K) [] = Err IndexError /\ sparse_cH (K:=K) [] d = Err IndexError /\
  (forall x : ltens K, mpo_cH [x] = Err IndexError) /\ (forall t : term K, sparse_cH [t] d = Err UnboundLocalError) /\
  (forall (front : list (term K)) a, 1 <= length front -> Forall (term_ok d) front -> sparse_cH (front ++ [TMat a]) d = Err AttributeError).
Proof. split; [reflexivity|]. split; [reflexivity|]. split; [reflexivity|]. split; [reflexivity|]. exact (sparse_cH_last_matrix d). Qed.
Print Assumptions C59_errors.
Theorem C59_shapes (K : StarRing) d (a b : nd K) rest last m1 n1 m2 n2 : 0 < d -> shp a = [m1; n1] -> shp b = [m2; n2] -> [m1; n1] <> [m2; n2] ->
  sparse_cH (TMat a :: TMat b :: rest ++ [last]) d = Err ValueError.
Proof. exact (sparse_cH_shapes d a b rest last m1 n1 m2 n2). Qed.
Print Assumptions C59_shapes.
Example C59_ex :
  let x := from_ok (cXY_term (g 0 1) (g 3 0) (g 1 0)) no_mpa in
  let z := from_ok (mpo_cH [x; ex_hop; x; ex_hop]) no_mpa in
  mshape z = repeat [2; 2] 4 /\ entry z (pairs [0; 0; 1; 1] [0; 0; 0; 0]) = g 2 0 /\
  entry z (pairs [1; 0; 0; 0] [0; 0; 0; 1]) = g 1 0 /\ entry z (pairs [0; 1; 0; 0] [0; 0; 1; 0]) = g 1 0.
Proof. vms. Qed.

(** ** C63: dump and load *)
(** Into a group that has no dataset named like a site, e.g. an empty one. *)
Theorem C63_round_trip (K : StarRing) (x : ltens K) (g : group K) : no_site_names g (llen x) -> mpa_ok x -> cform_ok x ->
  (do g' <- dump_group x g; load g') = Ok x.
Proof. exact (load_dump x g). Qed.
Print Assumptions C63_round_trip.
(** A file is truncated first: whatever it contained does not matter. *)
Theorem C63_file (K : StarRing) (x : ltens K) (old : group K) : mpa_ok x -> cform_ok x ->
  (do g' <- dump_file x old; load g') = Ok x.
Proof. exact (load_dump x empty_group (fun i _ => eq_refl)). Qed.
Print Assumptions C63_file.
(** What is stored, and that other datasets stay. *)
Theorem C63_contents (K : StarRing) (x : ltens K) (g : group K) : no_site_names g (llen x) ->
  exists g', dump_group x g = Ok g' /\ g_len g' = Some (llen x) /\ g_cform g' = Some (canonical_form x) /\
    (forall i, i < llen x -> lookup (str_nat i) (g_data g') = nth_error (lts x) i) /\
    (forall s, (forall i, i < llen x -> s <> str_nat i) -> lookup s (g_data g') = lookup s (g_data g)).
Proof. exact (dump_spec x g). Qed.
Print Assumptions C63_contents.
(** The names of different sites are different. *)
Theorem C63_names i j : str_nat i = str_nat j -> i = j.
Proof. exact (str_nat_inj i j). Qed.
Print Assumptions C63_names.
Theorem C63_taken (K : StarRing) (x : ltens K) (g : group K) :
  (exists i, i < llen x /\ lookup (str_nat i) (g_data g) <> None) -> dump_group x g = Err ValueError.
Proof. exact (dump_taken x g). Qed.
Print Assumptions C63_taken.
Theorem C63_missing (K : StarRing) (g : group K) n i : g_len g = Some n -> i < n -> lookup (str_nat i) (g_data g) = None -> load g = Err KeyError.
Proof. exact (load_missing g n i). Qed.
Print Assumptions C63_missing.
(** [cform_ok] asks for a left index below the length and a right index above 0.  Calls of
    [update] that state the form of the new tensor correctly leave this range: a
    left-canonical tensor at the last site, a right-canonical one at the first.  In the
    first case [load] raises, in the second it returns another form. *)
Definition ex_unit : nd GZ := mk [1; 2; 1] [g 1 0; g 0 0].
Theorem C63_form_refuted :
  (exists x y : ltens GZ, mpa_ok x /\ canon_true x /\ cform_ok x /\ lt_update_int x 1 ex_unit (Some "left"%string) = Ok y /\ canon_true y /\
     (do g' <- dump_file y empty_group; load g') = Err AssertionError) /\
  (exists x y z : ltens GZ, mpa_ok x /\ canon_true x /\ cform_ok x /\ lt_update_int x 0 ex_unit (Some "right"%string) = Ok y /\ canon_true y /\
     (do g' <- dump_file y empty_group; load g') = Ok z /\ canonical_form z <> canonical_form y).
Proof.
  split.
  - exists (mkLt [ex_unit; ex_unit] 1 2), (mkLt [ex_unit; ex_unit] 2 2). split; [apply mpa_okb_ok; reflexivity|]. split; [apply canon_trueb_ok; reflexivity|]. split; [apply cform_okb_ok; reflexivity|].
    split; [vms|]. split; [apply canon_trueb_ok; reflexivity|vms].
  - exists (mkLt [ex_unit; ex_unit] 0 1), (mkLt [ex_unit; ex_unit] 0 0), (mkLt [ex_unit; ex_unit] 0 2). split; [apply mpa_okb_ok; reflexivity|]. split; [apply canon_trueb_ok; reflexivity|]. split; [apply cform_okb_ok; reflexivity|].
    split; [vms|]. split; [apply canon_trueb_ok; reflexivity|]. split; [vms|discriminate].
Qed.
Print Assumptions C63_form_refuted.
Example C63_ex : (do g' <- dump_file ex_a empty_group; load g') = Ok ex_a /\ map str_nat [0; 7; 12; 345] = ["0"; "7"; "12"; "345"]%string /\ cform_ok ex_a.
Proof. split; [vms|]. split; [vms|]. apply cform_okb_ok; reflexivity. Qed.
