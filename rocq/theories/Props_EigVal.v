(** Property theorems: the value and the vector returned by [eig] and [eig_sum].

    [is_op mpo ds]: an MPO on sites of dimensions [ds]; [is_state m ds]: an MPS;
    [estart_ok]: the start vector is an MPS whose recorded canonical form is true.
    [eigs_pairs h eigs]: the local eigensolver returns eigenpairs ([h = true]: of
    Hermitian matrices, nothing is assumed of other matrices; the operator is then
    Hermitian); [eigs_unit]: of norm one.  [mpo_mat mpo is js] is the entry of the
    dense array in row [is], column [js]. *)
From Coq Require Import Reals Lra.
From Verif Require Import Oracles PfEigVal2 PfHistory Cplx Examples Props_Linalg ExEigVal.
Open Scope nat_scope.

(** One site at a time: the value is the expectation value of the returned vector,
    a vector of norm one. *)
Theorem C80_value (K : StarRing) qr svd eigs rs (mpo : ltens K) num sv rk ds h val y :
  qr_sound qr -> svd_sound svd -> eigs_wf eigs -> eigs_pairs h eigs ->
  is_op mpo ds -> (h = true -> herm_op ds (mpo_mat mpo)) -> estart_ok rs sv ds ->
  eig qr svd eigs rs mpo num 1 sv rk = Ok (val, y) ->
  sandwich mpo y None = Ok (val * norm2_of y)%K /\ (eigs_unit h eigs -> norm2_of y = k1 /\ sandwich mpo y None = Ok val).
Proof. intros H1 H2 H3 H4 H5 H6 H7. exact (eig_value1 qr svd eigs H1 H2 H3 rs mpo num sv rk ds h val y H5 H6 H7 H4). Qed.
Print Assumptions C80_value.

(** [eig_sum]: the value is the sum of the expectation values of the MPOs and of the
    squared overlaps with the MPSs of the list ([term_of]). *)
Theorem C80_sum_value (K : StarRing) qr svd eigs rs (mpas : list (ltens K)) num sv rk ds h val y cs :
  qr_sound qr -> svd_sound svd -> eigs_wf eigs -> eigs_pairs h eigs ->
  mpas <> [] -> Forall (fun m => is_op m ds \/ is_state m ds) mpas -> (h = true -> herm_op ds (sum_ker mpas)) -> estart_ok rs sv ds ->
  eig_sum qr svd eigs rs mpas num 1 sv rk = Ok (val, y) ->
  Forall2 (fun m c => (is_op m ds /\ sandwich m y None = Ok c) \/ (is_state m ds /\ c = inner_of y m * inner_of m y)%K) mpas cs ->
  fold_right kadd k0 cs = (val * norm2_of y)%K /\ (eigs_unit h eigs -> norm2_of y = k1 /\ fold_right kadd k0 cs = val).
Proof. intros H1 H2 H3 H4 H5 H6 H7 H8 H9. exact (eig_sum_value1 qr svd eigs H1 H2 H3 rs mpas num sv rk ds h val y cs H5 H6 H7 H8 H4 H9). Qed.
Print Assumptions C80_sum_value.

(** Any number of sites: the result is an MPS in true canonical form whose ranks do
    not exceed those of the start vector; the value is the expectation value of a
    vector [z], and the result is the orthogonal projection of [z] onto its own line:
    [<y, z> = <y, y>]. *)
Theorem C80_untruncated (K : StarRing) qr svd eigs rs (mpo : ltens K) num v sv rk ds h val y :
  qr_sound qr -> svd_sound svd -> eigs_wf eigs ->
  is_op mpo ds -> (h = true -> herm_op ds (mpo_mat mpo)) -> 1 <= v -> estart_ok rs sv ds ->
  eig qr svd eigs rs mpo num v sv rk = Ok (val, y) ->
  mps_inv ds y /\ cform_ok y /\ canon_true y /\
  (exists x, start_vector rs sv rk = Ok x /\ forall mr, 0 < mr -> Forall (fun k => k <= mr) (ranks x) -> Forall (fun k => k <= mr) (ranks y)) /\
  exists z, mps_inv ds z /\ (eigs_pairs h eigs -> sandwich mpo z None = Ok (val * norm2_of z)%K) /\ (eigs_unit h eigs -> norm2_of z = k1) /\
    inner_of y z = norm2_of y.
Proof.
  intros H1 H2 H3 H4 H5 H6 H7 E. destruct (eig_value qr svd eigs H1 H2 H3 rs mpo num v sv rk ds h val y H4 H5 H6 H7 E) as (x & A1 & _ & _ & _ & _ & _ & A2 & A3 & A4 & A5 & z & B1 & B2 & B3 & B4 & _).
  split; [exact A2|]. split; [exact A3|]. split; [exact A4|]. split; [exists x; auto|]. exists z. auto.
Qed.
Print Assumptions C80_untruncated.

(** Complex numbers: the norm of the result is at most one, its distance to the vector
    with that value is given by its norm, and if the norm is one then the value
    is its expectation value. *)
Theorem C80_truncated qr svd eigs rs (mpo : ltens CS) num v sv rk ds h val y :
  qr_sound qr -> svd_sound svd -> eigs_wf eigs -> eigs_pairs h eigs -> eigs_unit h eigs ->
  is_op mpo ds -> (h = true -> herm_op ds (mpo_mat mpo)) -> 1 <= v -> estart_ok rs sv ds ->
  eig qr svd eigs rs mpo num v sv rk = Ok (val, y) ->
  (Cre (norm2_of y) <= 1)%R /\
  (exists z, mps_inv ds z /\ norm2_of z = k1 /\ sandwich mpo z None = Ok val /\ dist2_of y z = (k1 - norm2_of y)%K) /\
  (norm2_of y = k1 -> sandwich mpo y None = Ok val).
Proof. intros H1 H2 H3 H4 H5 H6 H7 H8 H9. exact (eig_value_trunc qr svd eigs H1 H2 H3 rs mpo num v sv rk ds h val y H6 H7 H8 H9 H4 H5). Qed.
Print Assumptions C80_truncated.

(** The value lies above every lower bound of the expectation values: it is never
    below the smallest eigenvalue. *)
Theorem C80_range qr svd eigs rs (mpo : ltens CS) num v sv rk ds h val y e :
  qr_sound qr -> svd_sound svd -> eigs_wf eigs -> eigs_pairs h eigs -> eigs_unit h eigs ->
  is_op mpo ds -> (h = true -> herm_op ds (mpo_mat mpo)) -> 1 <= v -> estart_ok rs sv ds ->
  eig qr svd eigs rs mpo num v sv rk = Ok (val, y) ->
  (forall z q, mps_inv ds z -> norm2_of z = k1 -> sandwich mpo z None = Ok q -> (e <= Cre q)%R) -> (e <= Cre val)%R.
Proof. intros H1 H2 H3 H4 H5 H6 H7 H8 H9. exact (eig_value_range qr svd eigs H1 H2 H3 rs mpo num v sv rk ds h val y e H6 H7 H8 H9 H4 H5). Qed.
Print Assumptions C80_range.

(** One site at a time, with the best eigenpair of every local problem (smallest,
    largest or largest in magnitude): the value is at least as good as the Rayleigh
    quotient of the start vector. *)
Theorem C80_improves w qr svd eigs rs (mpo : ltens CS) num sv rk ds h val y x q :
  qr_sound qr -> svd_sound svd -> eigs_wf eigs -> eigs_pairs h eigs -> eigs_unit h eigs ->
  eigs_best h (fun val q s => match w with
     | SA => Cre val * Cre s <= Cre q
     | LA => Cre q <= Cre val * Cre s
     | LM => Rabs (Cre q) <= Rabs (Cre val) * Cre s
     end)%R eigs ->
  is_op mpo ds -> (h = true -> herm_op ds (mpo_mat mpo)) -> estart_ok rs sv ds ->
  eig qr svd eigs rs mpo num 1 sv rk = Ok (val, y) -> start_vector rs sv rk = Ok x -> sandwich mpo x None = Ok q ->
  match w with
  | SA => Cre val * Cre (norm2_of x) <= Cre q
  | LA => Cre q <= Cre val * Cre (norm2_of x)
  | LM => Rabs (Cre q) <= Rabs (Cre val) * Cre (norm2_of x)
  end%R.
Proof. intros H1 H2 H3 H4 H5 H6 H7 H8 H9. exact (eig_value_best qr svd eigs H1 H2 H3 w rs mpo num sv rk ds h val y x q H7 H8 H9 H4 H5 H6). Qed.
Print Assumptions C80_improves.

(** An eigensolver for the examples: tries vectors with entries 0 and 1 and checks
    the equation; [u]: only unit vectors. *)
Definition eig_check (m : nat) (op : nd GZ) (c : list GZ) (l : GZ) : bool :=
  allb m (fun i => gz_eqb (bigsum m (fun j => get op [i; j] * nth j c k0)%K) (l * nth i c k0)%K).
Definition eig_cand (m : nat) (k : list nat) : list GZ := map (fun i => if existsb (Nat.eqb i) k then k1 else k0) (seq 0 m).
Definition eigs_try (u : bool) (ks : list (list nat)) (op : nd GZ) (v0 : list GZ) : res (nd GZ * nd GZ) :=
  match shp op with
  | [m; _] =>
     let val (c : list nat) : GZ := bigsum m (fun j => get op [hd 0%nat c; j] * nth j (eig_cand m c) k0)%K in
     match find (fun c => eig_check m op (eig_cand m c) (val c) && (negb u || gz_eqb (sqn m (fun i => nth i (eig_cand m c) k0)) k1)) ks with
     | Some c => Ok (mk [1] [val c], mk [m; 1] (eig_cand m c))
     | None => Err LinAlgError
     end
  | _ => Err LinAlgError
  end.
Lemma eigs_try_inv u ks op v0 val vec : eigs_try u ks op v0 = Ok (val, vec) -> exists m n c l, shp op = [m; n] /\ val = mk [1] [l] /\ vec = mk [m; 1] (eig_cand m c) /\
  eig_check m op (eig_cand m c) l = true /\ (u = true -> sqn m (fun i => nth i (eig_cand m c) k0) = k1).
Proof.
  unfold eigs_try. destruct (shp op) as [|m [|n [|]]]; try discriminate. cbv zeta.
  destruct (find _ _) as [c|] eqn:F; [|discriminate]. apply find_some in F. destruct F as [_ F]. apply andb_true_iff in F. destruct F as [F1 F2].
  intros E. injection E as <- <-. do 4 eexists. split; [reflexivity|]. split; [reflexivity|]. split; [reflexivity|]. split; [exact F1|]. intros ->. apply gz_eqb_eq. exact F2.
Qed.
Lemma eigs_try_wf u ks : eigs_wf (eigs_try u ks).
Proof.
  intros op v0 val vec E. destruct (eigs_try_inv _ _ _ _ _ _ E) as (m & n & c & l & _ & _ & -> & _). unfold ndwf, eig_cand, mk; cbn [shp dat]; rewrite ?map_length, ?seq_length; unfold size; cbn; rewrite ?map_length, ?seq_length; lia.
Qed.
Lemma eigs_try_pairs u ks : eigs_pairs false (eigs_try u ks).
Proof.
  intros m op v0 val vec S _ E i Hi. destruct (eigs_try_inv _ _ _ _ _ _ E) as (m' & n & c & l & S' & -> & -> & C & _). rewrite S in S'. injection S' as <- <-.
  cbn [dat nth]. apply gz_eqb_eq. exact (allb_ok _ _ C i Hi).
Qed.
Lemma eigs_try_unit ks : eigs_unit false (eigs_try true ks).
Proof.
  intros m op v0 val vec S _ E. destruct (eigs_try_inv _ _ _ _ _ _ E) as (m' & n & c & l & S' & -> & -> & _ & U). rewrite S in S'. injection S' as <- <-. exact (U eq_refl).
Qed.

(** Two sweeps with one site on three sites. *)
Example C80_value_ex : is_op ex_h [2;2;2] /\ estart_ok no_start (Some ex_ghz) [2;2;2] /\
  eig_of (eig qr_gz svd_gz (eigs_try true [[7]; [3]; [2]; [1]; [0]]) no_start ex_h 2 1 (Some ex_ghz) None) = Some (g 6 0, unit8 4) /\
  (do p <- eig qr_gz svd_gz (eigs_try true [[7]; [3]; [2]; [1]; [0]]) no_start ex_h 2 1 (Some ex_ghz) None; sandwich ex_h (snd p) None) = Ok (g 6 0).
Proof.
  split; [exact ex_h_op|]. split; [|split; vmc]. split; [exact ex_ghz_inv|]. split; [apply cform_okb_ok; vmc|apply canon_trueb_ok; vmc].
Qed.

(** Complex numbers: the projector onto [|00>] and the start vector [|00> + |11>]
    with Rayleigh quotient 1/2; one sweep finds the value one. *)
Example C80_improves_ex : is_op p_op [2;2] /\ herm_op [2;2] (mpo_mat p_op) /\ estart_ok (fun _ => Err ValueError) (Some p_x) [2;2] /\
  qr_sound qr_one /\ svd_sound svd_d32 /\ eigs_wf eigs_p4 /\ eigs_pairs true eigs_p4 /\ eigs_unit true eigs_p4 /\ eigs_best true (better LA) eigs_p4 /\
  eig qr_one svd_d32 eigs_p4 (fun _ => Err ValueError) p_op 1 1 (Some p_x) None = Ok (toC 1, p_1) /\
  start_vector (fun _ => Err ValueError) (Some p_x) None = Ok p_x /\ norm2_of p_x = toC 2 /\ sandwich p_op p_x None = Ok (toC 1).
Proof.
  split; [exact p_op_is|]. split; [exact p_herm|]. split; [exact p_x_ok|]. split; [exact qr_one_sound|]. split; [exact svd_d32_sound|]. split; [exact eigs_p4_wf|].
  split; [exact (eigs_p4_pairs true)|]. split; [exact (eigs_p4_unit true)|]. split; [exact (eigs_p4_best true)|]. split; [apply p_run|]. split; [reflexivity|]. exact p_norm.
Qed.
(** An operator and the state [3 i |100>]: 6 + 9. *)
Definition ex_s4 : ltens GZ := mkLt [mk [1;2;1] [gi 0; g 0 3]; mk [1;2;1] [gi 1; gi 0]; mk [1;2;1] [gi 1; gi 0]] 0 3.
Definition sum_terms (e : list (list nat)) : option (GZ * GZ * GZ) :=
  match eig_sum qr_gz svd_gz (eigs_try true e) no_start [ex_h; ex_s4] 2 1 (Some ex_ghz) None with
  | Ok (val, y) => match sandwich ex_h y None with Ok c => Some (val, c, inner_of y ex_s4 * inner_of ex_s4 y)%K | Err _ => None end
  | Err _ => None
  end.
Example C80_sum_ex : is_state ex_s4 [2;2;2] /\ sum_terms [[7]; [3]; [2]; [1]; [0]] = Some (g 15 0, g 6 0, g 9 0).
Proof. split; [|vmc]. split; [split; [discriminate|split; [apply bondsb_iff; vmc|repeat constructor]]|reflexivity]. Qed.

(** With two sites the truncation changes the expectation value but not the value
    returned: [|phi><phi| x 1] with [phi = |00> + |11> + |22>] and ranks two.  The value
    is 3, the returned vector has squared norm 2 and [<y|H|y> = 4]. *)
Definition ex_x3 : ltens GZ := mkLt [tab [1;3;2] (fun i => delta (nth 1 i 0) (nth 2 i 0));
  tab [2;3;2] (fun i => if Nat.eqb (nth 0 i 0) (nth 1 i 0) then delta (nth 1 i 0) (nth 2 i 0) else k0);
  tab [2;3;1] (fun i => delta (nth 0 i 0) (nth 1 i 0))] 0 3.
Definition ex_phi3 : ltens GZ := mkLt [tab [1;3;3;9] (fun i => delta (3 * nth 1 i 0 + nth 2 i 0) (nth 3 i 0));
  tab [9;3;3;1] (fun i => delta (3 * nth 1 i 0 + nth 2 i 0) (nth 0 i 0)); tab [1;3;3;1] (fun i => delta (nth 1 i 0) (nth 2 i 0))] 0 3.
Theorem C80_several_sites_refuted : exists qr svd eigs (mpo x y : ltens GZ) val,
  qr_sound qr /\ svd_sound svd /\ eigs_wf eigs /\ eigs_pairs false eigs /\ is_op mpo [3;3;3] /\ estart_ok no_start (Some x) [3;3;3] /\
  eig qr svd eigs no_start mpo 1 2 (Some x) None = Ok (val, y) /\ norm2_of y = g 2 0 /\ val = g 3 0 /\ sandwich mpo y None = Ok (g 4 0).
Proof.
  exists qr_gz, svd_gz, (eigs_try false [[0; 8; 16]; [3; 10]]), ex_phi3, ex_x3.
  destruct (eig qr_gz svd_gz (eigs_try false [[0; 8; 16]; [3; 10]]) no_start ex_phi3 1 2 (Some ex_x3) None) as [[val y]|] eqn:E; [|vm_compute in E; discriminate].
  exists y, val. split; [exact qr_gz_sound|]. split; [exact svd_gz_sound|]. split; [apply eigs_try_wf|]. split; [apply eigs_try_pairs|].
  split; [split; [apply mpa_okb_ok; vmc|split; vms]|].
  split; [split; [split; [split; [discriminate|split; [apply bondsb_iff; vmc|repeat constructor]]|split; [vms|unfold cform_wk; cbn; lia]]|split; [apply cform_okb_ok; vmc|apply canon_trueb_ok; vmc]]|].
  split; [reflexivity|]. vm_compute in E. injection E as <- <-. split; [vmc|]. split; [reflexivity|vmc].
Qed.
Print Assumptions C80_several_sites_refuted.
