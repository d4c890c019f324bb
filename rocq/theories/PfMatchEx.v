(** Examples for [est_pmf_from]: diagonal POVMs on one and two sites. *)
From Coq Require Import Reals Lra.
From Verif Require Export PfDiag.
Open Scope nat_scope.
Add Ring Cr : (k_ring CS).

Definition rows_site (h : nat) (rows : list (list R)) : dsite := mkD (length rows) h (fun k i => nth i (nth k rows []) 0%R).
(** Basis measurement; no measurement; four elements, two of them multiples of the basis
    projectors; the basis measurement with its first outcome split in two halves *)
Definition s_z : dsite := rows_site 2 [[1; 0]; [0; 1]]%R.
Definition s_one : dsite := rows_site 2 [[1; 1]]%R.
Definition s_four : dsite := rows_site 2 [[1 / 2; 0]; [0; 1 / 2]; [3 / 8; 1 / 8]; [1 / 8; 3 / 8]]%R.
Definition s_split : dsite := rows_site 2 [[1 / 2; 0]; [1 / 2; 0]; [0; 1]]%R.
Lemma site_cases : Forall dsite_ok [s_z; s_one; s_four; s_split].
Proof.
  assert (I : forall i, i < 2 -> i = 0 \/ i = 1) by lia.
  repeat apply Forall_cons; try apply Forall_nil; (split; [cbn; lia|]; split; [cbn; lia|]; split).
  all: try (intros i Hi; destruct (I i Hi) as [-> | ->]; unfold rbig; cbn; lra).
  all: intros k i Hk Hi; destruct (I i Hi) as [-> | ->]; cbn in Hk.
  all: do 4 (try (destruct k as [|k]; [cbn; lra|])); exfalso; lia.
Qed.
Lemma z_ok : dsite_ok s_z. Proof. exact (Forall_inv site_cases). Qed.
Lemma one_ok : dsite_ok s_one. Proof. exact (Forall_inv (Forall_inv_tail site_cases)). Qed.
Lemma four_ok : dsite_ok s_four. Proof. exact (Forall_inv (Forall_inv_tail (Forall_inv_tail site_cases))). Qed.
Lemma split_ok : dsite_ok s_split. Proof. exact (Forall_inv (Forall_inv_tail (Forall_inv_tail (Forall_inv_tail site_cases)))). Qed.
(** Index lists below [n] *)
Lemma inr1_cases n ks : inr ks [n] -> exists k, k < n /\ ks = [k].
Proof. intros H. apply inr_cons_inv in H. destruct H as (k & r & -> & Hk & Hr). inversion Hr; subst. exists k. auto. Qed.
Lemma inr2_cases n m ks : inr ks [n; m] -> exists k l, k < n /\ l < m /\ ks = [k; l].
Proof. intros H. apply inr_cons_inv in H. destruct H as (k & r & -> & Hk & Hr). apply inr1_cases in Hr. destruct Hr as (l & Hl & ->). exists k, l. auto. Qed.
(** The maximally mixed state *)
Definition mixed (d : R) : mat CS := fun is js => (toC d * list_delta is js)%K.
Lemma mixed_born l (z : ltens CS) d : povm_ok z (map dn l) (map dh l) -> (forall ks is js, inr ks (map dn l) -> inr is (map dh l) -> inr js (map dh l) -> elem_of z ks is js = diag (dprod l ks) is js) ->
  forall ks, inr ks (map dn l) -> mborn z (mixed d) ks = toC (d * rmsum (map dh l) (dprod l ks)).
Proof.
  intros Hz E ks Hk. rewrite (mborn_trw z _ _ (mixed d) ks Hz). rewrite (trw_ext _ _ (diag (dprod l ks)) _ (fun is js => E ks is js Hk)). unfold trw. rewrite toC_mul, <- toC_rmsum, <- msum_mul_l. apply msum_ext. intros is Hi.
  rewrite (diag_sum _ (dprod l ks) (fun is js => diag (dprod l ks) is js * mixed d js is)%K is Hi).
  - unfold diag, mixed. destruct (list_eq_dec Nat.eq_dec is is); [|congruence]. rewrite <- ident_delta, ident_diag. ring.
  - intros js Hj N. unfold diag. destruct (list_eq_dec Nat.eq_dec is js); [congruence|]. ring.
Qed.
Ltac enum k := do 5 (try (destruct k as [|k]; [|try (exfalso; lia)])).
Ltac rcalc := unfold rdot, xdiag, odiag, rmsum; cbn; lra.

(** ** Two sites: four outcomes and none against basis measurements on both sites *)
Definition ex_lx : list dsite := [s_four; s_one].
Definition ex_lo : list dsite := [s_z; s_z].
Lemma ex_two : exists x o, povm_ok x [4; 1] [2; 2] /\ povm_ok o [2; 2] [2; 2] /\ psd_elems x /\ sums_to_id x /\ psd_elems o /\ sums_to_id o /\
  (forall ks is js, inr ks [4; 1] -> inr is [2; 2] -> inr js [2; 2] -> elem_of x ks is js = diag (dprod ex_lx ks) is js) /\
  (forall ks is js, inr ks [2; 2] -> inr is [2; 2] -> inr js [2; 2] -> elem_of o ks is js = diag (dprod ex_lo ks) is js).
Proof.
  destruct (diag_povm ex_lx) as (x & _ & H1 & H2 & H3 & H4); [discriminate|exact (Forall_cons _ four_ok (Forall_cons _ one_ok (Forall_nil _)))|].
  destruct (diag_povm ex_lo) as (o & _ & H5 & H6 & H7 & H8); [discriminate|exact (Forall_cons _ z_ok (Forall_cons _ z_ok (Forall_nil _)))|].
  exists x, o. exact (conj H1 (conj H5 (conj H2 (conj H3 (conj H6 (conj H7 (conj H4 H8))))))).
Qed.
Section Two.
Variables x o : ltens CS.
Hypothesis Ex : forall ks is js, inr ks [4; 1] -> inr is [2; 2] -> inr js [2; 2] -> elem_of x ks is js = diag (dprod ex_lx ks) is js.
Hypothesis Eo : forall ks is js, inr ks [2; 2] -> inr is [2; 2] -> inr js [2; 2] -> elem_of o ks is js = diag (dprod ex_lo ks) is js.
Lemma two_od l : l < 2 -> (0 < rdot ex_lx (odiag ex_lx ex_lo [l; 0%nat]) (odiag ex_lx ex_lo [l; 0%nat]))%R.
Proof. intros Hl. enum l; rcalc. Qed.
Lemma two_nonzero : nonzero_elems [2; 2] [4; 1] [2; 2] x o.
Proof.
  apply (diag_nonzero ex_lx ex_lo eq_refl x o Ex Eo).
  - intros ks Hk. change (inr ks [4; 1]) in Hk. apply inr2_cases in Hk. destruct Hk as (k & l & Hk & Hl & ->). assert (l = 0) by lia. subst l. enum k; rcalc.
  - intros ls Hl. change (inr ls [2; 1]) in Hl. apply inr2_cases in Hl. destruct Hl as (l & m & Hl & Hm & ->). assert (m = 0) by lia. subst m. apply two_od. lia.
Qed.
Lemma two_mt k l : k < 4 -> l < 2 -> mt [2; 2] [4; 1] [2; 2] x o [k; 0] [l; 0] = Nat.eqb k l /\ (k = l -> pfac [2; 2] [4; 1] [2; 2] x o [k; 0] [l; 0] = (1 / 2)%R).
Proof.
  intros Hk Hl. assert (Ik : inr [k; 0] [4; 1]) by (repeat (apply inr_cons; [lia|]); constructor). assert (Il : inr [l; 0] [2; 1]) by (repeat (apply inr_cons; [lia|]); constructor).
  destruct (Nat.eqb_spec k l) as [->|N].
  - destruct (diag_prop ex_lx ex_lo eq_refl x o Ex Eo (1 / 2) [l; 0] [l; 0] Ik Il) as [A B]; [lra|apply two_od; exact Hl| |split; auto].
    intros is Hi. change (inr is [2; 2]) in Hi. apply inr2_cases in Hi. destruct Hi as (i & j & Hi & Hj & ->). enum l; enum i; enum j; unfold xdiag, odiag; cbn; lra.
  - split; [|congruence]. apply (diag_noprop ex_lx ex_lo eq_refl x o Ex Eo [k; 0] [l; 0] Ik Il). enum k; enum l; try congruence; unfold rdot, xdiag, odiag, rmsum; cbn; lra.
Qed.
Lemma two_idx ks ls : inr ks [4; 1] -> inr ls [2; 1] -> exists k l, k < 4 /\ l < 2 /\ ks = [k; 0] /\ ls = [l; 0].
Proof.
  intros Hk Hl. apply inr2_cases in Hk, Hl. destruct Hk as (k & a & Hk & Ha & ->), Hl as (l & b & Hl & Hb & ->). exists k, l. split; [exact Hk|]. split; [exact Hl|]. split; repeat f_equal; lia.
Qed.
Lemma two_given k : k < 4 -> is_given [2; 2] [4; 1] [2; 2] x o [k; 0] = Nat.ltb k 2.
Proof.
  intros Hk. unfold is_given. cbn [outcomes merge_dims zip2 Nat.ltb Nat.leb size map seq unravel]. change (outcomes [2; 1]) with [[0; 0]; [1; 0]].
  change (existsb (mt [2; 2] [4; 1] [2; 2] x o [k; 0]) [[0; 0]; [1; 0]] = (k <? 2)). cbn [existsb]. rewrite (proj1 (two_mt k 0 Hk ltac:(lia))), (proj1 (two_mt k 1 Hk ltac:(lia))). enum k; reflexivity.
Qed.
Lemma two_sep : separated [2; 2] [4; 1] [2; 2] x o /\ single_match [2; 2] [4; 1] [2; 2] x o.
Proof.
  split.
  - intros ks ls Hk Hl Hm. destruct (two_idx ks ls Hk Hl) as (k & l & Hk' & Hl' & -> & ->). rewrite (proj1 (two_mt k l Hk' Hl')) in Hm. apply Nat.eqb_eq in Hm. subst k. exists (toC (1 / 2)). intros is js Hi Hj.
    rewrite Ex by assumption. pose proof (summed_diag ex_lx ex_lo eq_refl o Eo [l; 0] is js Hl Hi Hj) as Sd. change (summed_elem [4; 1] [2; 2] o [l; 0] is js = diag (odiag ex_lx ex_lo [l; 0]) is js) in Sd. rewrite Sd. unfold diag. destruct (list_eq_dec Nat.eq_dec is js); [|ring]. rewrite <- toC_mul. f_equal.
    change (inr is [2; 2]) in Hi. apply inr2_cases in Hi. destruct Hi as (i & j & Hi & Hi' & ->). clear -Hl' Hi Hi'. enum l; enum i; enum j; unfold odiag; cbn; lra.
  - intros ks ls ls' Hk Hl Hl' M1 M2. destruct (two_idx ks ls Hk Hl) as (k & l & A & B & -> & ->). destruct (two_idx _ ls' Hk Hl') as (k' & l' & A' & B' & E & ->). injection E as <-.
    rewrite (proj1 (two_mt _ _ A B)) in M1. rewrite (proj1 (two_mt _ _ A B')) in M2. apply Nat.eqb_eq in M1, M2. congruence.
Qed.
Lemma two_covers : covers [2; 2] [4; 1] [2; 2] x o (1 / 2).
Proof.
  intros is js Hi Hj. cbn [msum]. rewrite (bigsum_ext _ _ (fun k => if Nat.ltb k 2 then diag (dprod ex_lx [k; 0]) is js else k0)).
  - unfold diag. rewrite <- ident_delta. unfold ident. destruct (list_eq_dec Nat.eq_dec is js); [|cbn [bigsum Nat.ltb Nat.leb]; ring].
    change (inr is [2; 2]) in Hi. apply inr2_cases in Hi. destruct Hi as (i & j & Hi & Hi' & ->). clear -Hi Hi'. enum i; enum j; apply cplx_eq; cbn; lra.
  - intros k Hk. cbn [bigsum msum]. rewrite two_given by exact Hk. destruct (k <? 2); [|ring]. change (entry x (triples [k; 0] is js)) with (elem_of x [k; 0] is js).
    rewrite Ex by (try assumption; repeat (apply inr_cons; [lia|]); constructor). ring.
Qed.
End Two.
Lemma mixed_trace hs d : (d * INR (size hs) = 1)%R -> unit_trace hs (mixed d).
Proof.
  intros H. unfold unit_trace, mixed. rewrite (msum_ext hs _ (fun _ => toC d)) by (intros is _; rewrite <- ident_delta, ident_diag; ring).
  rewrite toC_rmsum. rewrite <- toC_1. f_equal. rewrite rmsum_flat. unfold rbig. rewrite <- H. generalize (size hs). intros n. induction n as [|n IH]; [cbn; lra|]. cbn [bigsum]. rewrite S_INR. etransitivity; [apply f_equal2; [exact IH|reflexivity]|]. cbn. lra.
Qed.
Definition two_rows : list (list nat) := [[0; 0]; [0; 1]; [1; 0]; [1; 1]].
Theorem two_estimate qr eps : qr_sound qr -> (0 < eps)%R -> exists x o rho P Q, povm_ok x [4; 1] [2; 2] /\ povm_ok o [2; 2] [2; 2] /\ psd_elems x /\ sums_to_id x /\ psd_elems o /\ sums_to_id o /\
  nonzero_elems [2; 2] [4; 1] [2; 2] x o /\ separated [2; 2] [4; 1] [2; 2] x o /\ single_match [2; 2] [4; 1] [2; 2] x o /\ covers [2; 2] [4; 1] [2; 2] x o (1 / 2) /\
  unit_trace [2; 2] rho /\ born_prob x rho P /\ born_prob o rho Q /\ exact_freqs [2; 2] Q two_rows /\
  outc (qr_fails qr) (est_pmf_from qr x o (S2n [2; 2] two_rows) eps) (fun r => r = ([Fin (1 / 4); Fin (1 / 4); NaN; NaN], 4)).
Proof.
  intros Hqr He. destruct ex_two as (x & o & Hx & Ho & Px & Sx & Po & So & Ex & Eo). set (rho := mixed (1 / 4)).
  set (P := fun ks : list nat => (1 / 4)%R). set (Q := fun ls : list nat => (1 / 4)%R). exists x, o, rho, P, Q.
  destruct (two_sep x o Ex Eo) as [Sep Sm]. pose proof (two_nonzero x o Ex Eo) as NZ. pose proof (two_covers x o Ex Eo) as Cv.
  assert (Tr : unit_trace [2; 2] rho) by (apply mixed_trace; change (size [2; 2]) with 4; rewrite INR_IZR_INZ; change (Z.of_nat 4) with 4%Z; lra).
  assert (BP : born_prob x rho P).
  { intros ks Hk. rewrite (proj1 (povm_dims _ _ _ Hx)) in Hk. unfold rho. rewrite (mixed_born ex_lx x (1 / 4) Hx Ex ks Hk). f_equal. apply inr2_cases in Hk. destruct Hk as (k & l & Hk & Hl & ->). assert (l = 0) by lia. subst l. unfold P. clear -Hk. enum k; unfold rmsum; cbn; lra. }
  assert (BQ : born_prob o rho Q).
  { intros ks Hk. rewrite (proj1 (povm_dims _ _ _ Ho)) in Hk. unfold rho. rewrite (mixed_born ex_lo o (1 / 4) Ho Eo ks Hk). f_equal. apply inr2_cases in Hk. destruct Hk as (k & l & Hk & Hl & ->). unfold Q. clear -Hk Hl. enum k; enum l; unfold rmsum; cbn; lra. }
  assert (Fr : exact_freqs [2; 2] Q two_rows).
  { intros l Hl. apply inr2_cases in Hl. destruct Hl as (k & l' & Hk & Hl & ->). unfold Q. clear -Hk Hl. enum k; enum l'; cbn; lra. }
  repeat (split; [assumption|]).
  pose proof (est_pmf_from_exact qr Hqr x o [4; 1] [2; 2] [2; 2] rho P Q two_rows (1 / 2) eps Hx Ho NZ ltac:(discriminate) Px Po Sx Tr BP BQ Sep Sm Cv ltac:(lra) He
    ltac:(repeat constructor) ltac:(discriminate) Fr) as R. change (S2n (bigd [2; 2]) (map (bigi [2; 2]) two_rows)) with (S2n [2; 2] two_rows) in R.
  apply (outc_weaken _ _ _ _ _ R (fun f => f)). cbn beta. intros r ->.
  change (outcomes [4; 1]) with [[0; 0]; [1; 0]; [2; 0]; [3; 0]]. cbn [map]. rewrite !(two_given x o Ex Eo) by lia. cbn [Nat.ltb Nat.leb]. unfold P. f_equal.
  unfold n_used. change (bigd (merge_dims [4; 1] [2; 2])) with [2]. cbv iota. change (outcomes [4; 1]) with [[0; 0]; [1; 0]; [2; 0]; [3; 0]]. unfold two_rows. cbn [filter proj zip2 Nat.ltb Nat.leb existsb].
  assert (T : forall k l, k < 4 -> l < 2 -> mt [2; 2] [4; 1] [2; 2] x o [k; 0] [l; 0] = Nat.eqb k l) by (intros k l Hk Hl; apply (two_mt x o Ex Eo k l Hk Hl)). rewrite !T by lia. reflexivity.
Qed.

(** ** One site: duplicate elements, and elements without match *)
Lemma one_povm s : dsite_ok s -> exists z, povm_ok z [dn s] [dh s] /\ psd_elems z /\ sums_to_id z /\
  forall ks is js, inr ks [dn s] -> inr is [dh s] -> inr js [dh s] -> elem_of z ks is js = diag (dprod [s] ks) is js.
Proof. intros H. destruct (diag_povm [s]) as (z & _ & H1 & H2 & H3 & H4); [discriminate|exact (Forall_cons _ H (Forall_nil _))|]. exists z. exact (conj H1 (conj H2 (conj H3 H4))). Qed.
(** Data sets with the exact frequencies that are rejected: the estimates of matching elements are
    added, not averaged. *)
Theorem dup_rejected qr eps : qr_sound qr -> (0 < eps < 1 / 2)%R -> exists x o rho P Q lss, povm_ok x [2] [2] /\ povm_ok o [3] [2] /\ psd_elems x /\ sums_to_id x /\ psd_elems o /\ sums_to_id o /\
  nonzero_elems [2] [2] [3] x o /\ separated [2] [2] [3] x o /\ unit_trace [2] rho /\ born_prob x rho P /\ born_prob o rho Q /\ lss <> [] /\ Forall (fun l => inr l [3]) lss /\ exact_freqs [3] Q lss /\
  (est_pmf_from qr x o (S2n [3] lss) eps = Err AssertionError \/ qr_fails qr).
Proof.
  intros Hqr He. destruct (one_povm s_z z_ok) as (x & Hx & Px & Sx & Ex). destruct (one_povm s_split split_ok) as (o & Ho & Po & So & Eo).
  change [dn s_z] with [2] in *. change [dh s_z] with [2] in *. change [dn s_split] with [3] in *. change [dh s_split] with [2] in *.
  set (rho := mixed (1 / 2)). set (P := fun ks : list nat => (1 / 2)%R). set (Q := fun ls : list nat => match ls with [2] => (1 / 2)%R | _ => (1 / 4)%R end).
  exists x, o, rho, P, Q, [[0]; [1]; [2]; [2]].
  assert (Od : forall l, l < 3 -> (0 < rdot [s_z] (odiag [s_z] [s_split] [l]) (odiag [s_z] [s_split] [l]))%R) by (intros l Hl; enum l; rcalc).
  assert (I1 : forall k n, k < n -> inr [k] [n]) by (intros; apply inr_cons; [assumption|constructor]).
  assert (NZ : nonzero_elems [2] [2] [3] x o).
  { apply (diag_nonzero [s_z] [s_split] eq_refl x o Ex Eo); intros ks Hk; [change (inr ks [2]) in Hk|change (inr ks [3]) in Hk]; apply inr1_cases in Hk; destruct Hk as (k & Hk & ->); [enum k; rcalc|apply Od; exact Hk]. }
  set (c := fun l => match l with 2 => 1 | _ => 2 end%R). set (t := fun k l => match k, l with 0, 0 => true | 0, 1 => true | 1, 2 => true | _, _ => false end).
  assert (Pr : forall k l, k < 2 -> l < 3 -> t k l = true -> forall is, inr is [2] -> xdiag [s_z] [k] is = (c l * odiag [s_z] [s_split] [l] is)%R).
  { intros k l Hk Hl T is Hi. change (inr is [2]) in Hi. apply inr1_cases in Hi. destruct Hi as (i & Hi & ->). enum k; enum l; try discriminate; enum i; unfold xdiag, odiag, c; cbn; lra. }
  assert (M : forall k l, k < 2 -> l < 3 -> mt [2] [2] [3] x o [k] [l] = t k l).
  { intros k l Hk Hl. destruct (t k l) eqn:T.
    - apply (diag_prop [s_z] [s_split] eq_refl x o Ex Eo (c l) [k] [l] (I1 k 2 Hk) (I1 l 3 Hl)); [unfold c; enum l; lra|apply Od; exact Hl|apply Pr; assumption].
    - apply (diag_noprop [s_z] [s_split] eq_refl x o Ex Eo [k] [l] (I1 k 2 Hk) (I1 l 3 Hl)). enum k; enum l; try discriminate; unfold rdot, xdiag, odiag, rmsum; cbn; lra. }
  assert (Sep : separated [2] [2] [3] x o).
  { intros ks ls Hk Hl Hm. pose proof Hl as Hl0. change (inr ls [3]) in Hl. apply inr1_cases in Hk, Hl. destruct Hk as (k & Hk & ->), Hl as (l & Hl & ->). rewrite M in Hm by assumption. exists (toC (c l)). intros is js Hi Hj. rewrite Ex by (auto; apply I1; exact Hk).
    pose proof (summed_diag [s_z] [s_split] eq_refl o Eo [l] is js Hl0 Hi Hj) as Sd. change (summed_elem [2] [3] o [l] is js = diag (odiag [s_z] [s_split] [l]) is js) in Sd. rewrite Sd. unfold diag. destruct (list_eq_dec Nat.eq_dec is js); [|ring]. rewrite <- toC_mul. f_equal. apply (Pr k l Hk Hl Hm). exact Hi. }
  assert (G : forall k, k < 2 -> is_given [2] [2] [3] x o [k] = true).
  { intros k Hk. unfold is_given. change (outcomes (merge_dims [2] [3])) with [[0]; [1]; [2]]. cbn [existsb]. rewrite !M by lia. enum k; reflexivity. }
  assert (Cv : covers [2] [2] [3] x o 1).
  { intros is js Hi Hj. pose proof Sx as S1. unfold sums_to_id in S1. rewrite (proj1 (povm_dims _ _ _ Hx)), (proj1 (proj2 (povm_dims _ _ _ Hx))) in S1. transitivity (list_delta is js : CS); [|rewrite toC_1; ring]. rewrite <- (S1 is js Hi Hj).
    apply msum_ext. intros ks Hk. apply inr1_cases in Hk. destruct Hk as (k & Hk & ->). rewrite G by exact Hk. reflexivity. }
  assert (Tr : unit_trace [2] rho) by (apply mixed_trace; change (size [2]) with 2; rewrite INR_IZR_INZ; change (Z.of_nat 2) with 2%Z; lra).
  assert (BP : born_prob x rho P).
  { intros ks Hk. rewrite (proj1 (povm_dims _ _ _ Hx)) in Hk. unfold rho. rewrite (mixed_born [s_z] x (1 / 2) Hx Ex ks Hk). f_equal. apply inr1_cases in Hk. destruct Hk as (k & Hk & ->). unfold P. clear -Hk. enum k; unfold rmsum; cbn; lra. }
  assert (BQ : born_prob o rho Q).
  { intros ks Hk. rewrite (proj1 (povm_dims _ _ _ Ho)) in Hk |- *. unfold rho. rewrite (mixed_born [s_split] o (1 / 2) Ho Eo ks Hk). f_equal. apply inr1_cases in Hk. destruct Hk as (k & Hk & ->). change (bigi [3] [k]) with [k]. unfold Q. clear -Hk. enum k; unfold rmsum; cbn; lra. }
  assert (Fr : exact_freqs [3] Q [[0]; [1]; [2]; [2]]).
  { intros l Hl. apply inr1_cases in Hl. destruct Hl as (k & Hk & ->). change (bigi [3] [k]) with [k]. unfold Q. clear -Hk. enum k; cbn; lra. }
  assert (Rw : Forall (fun l => inr l [3]) [[0]; [1]; [2]; [2]]) by (repeat constructor). assert (Rn : [[0]; [1]; [2]; [2]] <> []) by discriminate.
  repeat (split; [assumption|]).
  destruct (est_pmf_from_cover qr Hqr x o [2] [3] [2] [[0]; [1]; [2]; [2]] 1 eps Hx Ho NZ ltac:(discriminate) Px Sx Cv ltac:(lra) ltac:(lra) Rw Rn) as [[_ F]|E]; [right; exact F|left].
  change (S2n (bigd [3]) (map (bigi [3]) [[0]; [1]; [2]; [2]])) with (S2n [3] [[0]; [1]; [2]; [2]]) in E. rewrite E.
  assert (N : forall k, k < 2 -> n_matches [2] [2] [3] x o [k] = match k with 0 => 2 | _ => 1 end%R).
  { intros k Hk. unfold n_matches. change (merge_dims [2] [3]) with [3]. unfold rmsum. cbn [msum bigsum]. rewrite !M by (lia || assumption). enum k; cbn; lra. }
  assert (S : rmsum [2] (est_val [2] [2] [3] x o [[0]; [1]; [2]; [2]]) = (3 / 2)%R).
  { rewrite (rmsum_ext [2] _ (fun ks => Rmult (n_matches [2] [2] [3] x o ks) (P (bigi [2] ks)))) by (intros ks Hk; apply (est_val_exact x o [2] [3] [2] rho P Q Hx Ho NZ Px Po Sep BP BQ _ ks Hk Rn Rw Fr)).
    unfold rmsum. cbn [msum bigsum]. rewrite !N by lia. unfold P. cbn. lra. }
  rewrite S. unfold Rleb. destruct (Rle_dec _ _) as [C|_]; [|reflexivity]. exfalso. pose proof (Rle_abs (3 / 2 - 1)). lra.
Qed.
(** A possible data set that is rejected because [o] has elements without match *)
Theorem unmatched_rejected qr eps : qr_sound qr -> (0 < eps < 1)%R -> exists x o, povm_ok x [2] [2] /\ povm_ok o [4] [2] /\ psd_elems x /\ sums_to_id x /\ psd_elems o /\ sums_to_id o /\
  nonzero_elems [2] [2] [4] x o /\ separated [2] [2] [4] x o /\ single_match [2] [2] [4] x o /\ covers [2] [2] [4] x o 1 /\
  (est_pmf_from qr x o (S2n [4] [[0]]) eps = Err AssertionError \/ qr_fails qr).
Proof.
  intros Hqr He. destruct (one_povm s_z z_ok) as (x & Hx & Px & Sx & Ex). destruct (one_povm s_four four_ok) as (o & Ho & Po & So & Eo).
  change [dn s_z] with [2] in *. change [dh s_z] with [2] in *. change [dn s_four] with [4] in *. change [dh s_four] with [2] in *. exists x, o.
  assert (Od : forall l, l < 4 -> (0 < rdot [s_z] (odiag [s_z] [s_four] [l]) (odiag [s_z] [s_four] [l]))%R) by (intros l Hl; enum l; rcalc).
  assert (I1 : forall k n, k < n -> inr [k] [n]) by (intros; apply inr_cons; [assumption|constructor]).
  assert (NZ : nonzero_elems [2] [2] [4] x o).
  { apply (diag_nonzero [s_z] [s_four] eq_refl x o Ex Eo); intros ks Hk; [change (inr ks [2]) in Hk|change (inr ks [4]) in Hk]; apply inr1_cases in Hk; destruct Hk as (k & Hk & ->); [enum k; rcalc|apply Od; exact Hk]. }
  assert (Pr : forall k, k < 2 -> forall is, inr is [2] -> xdiag [s_z] [k] is = (2 * odiag [s_z] [s_four] [k] is)%R).
  { intros k Hk is Hi. change (inr is [2]) in Hi. apply inr1_cases in Hi. destruct Hi as (i & Hi & ->). enum k; enum i; unfold xdiag, odiag; cbn; lra. }
  assert (M : forall k l, k < 2 -> l < 4 -> mt [2] [2] [4] x o [k] [l] = Nat.eqb k l /\ (k = l -> pfac [2] [2] [4] x o [k] [l] = 2%R)).
  { intros k l Hk Hl. destruct (Nat.eqb_spec k l) as [<-|N].
    - destruct (diag_prop [s_z] [s_four] eq_refl x o Ex Eo 2 [k] [k] (I1 k 2 Hk) (I1 k 4 Hl)) as [A B]; [lra|apply Od; exact Hl|apply Pr; exact Hk|split; auto].
    - split; [|congruence]. apply (diag_noprop [s_z] [s_four] eq_refl x o Ex Eo [k] [l] (I1 k 2 Hk) (I1 l 4 Hl)). enum k; enum l; try congruence; unfold rdot, xdiag, odiag, rmsum; cbn; lra. }
  assert (Sep : separated [2] [2] [4] x o).
  { intros ks ls Hk Hl Hm. pose proof Hl as Hl0. change (inr ls [4]) in Hl. apply inr1_cases in Hk, Hl. destruct Hk as (k & Hk & ->), Hl as (l & Hl & ->). rewrite (proj1 (M k l Hk Hl)) in Hm. apply Nat.eqb_eq in Hm. subst l. exists (toC 2). intros is js Hi Hj. rewrite Ex by (auto; apply I1; exact Hk).
    pose proof (summed_diag [s_z] [s_four] eq_refl o Eo [k] is js Hl0 Hi Hj) as Sd. change (summed_elem [2] [4] o [k] is js = diag (odiag [s_z] [s_four] [k]) is js) in Sd. rewrite Sd. unfold diag. destruct (list_eq_dec Nat.eq_dec is js); [|ring]. rewrite <- toC_mul. f_equal. apply (Pr k Hk). exact Hi. }
  assert (Sm : single_match [2] [2] [4] x o).
  { intros ks ls ls' Hk Hl Hl' M1 M2. change (inr ls [4]) in Hl. change (inr ls' [4]) in Hl'. apply inr1_cases in Hk, Hl, Hl'. destruct Hk as (k & Hk & ->), Hl as (l & Hl & ->), Hl' as (l' & Hl' & ->). rewrite (proj1 (M k l Hk Hl)) in M1. rewrite (proj1 (M k l' Hk Hl')) in M2. apply Nat.eqb_eq in M1, M2. congruence. }
  assert (G : forall k, k < 2 -> is_given [2] [2] [4] x o [k] = true).
  { intros k Hk. unfold is_given. change (outcomes (merge_dims [2] [4])) with [[0]; [1]; [2]; [3]]. cbn [existsb]. rewrite (proj1 (M k 0 Hk ltac:(lia))), (proj1 (M k 1 Hk ltac:(lia))), (proj1 (M k 2 Hk ltac:(lia))), (proj1 (M k 3 Hk ltac:(lia))). enum k; reflexivity. }
  assert (Cv : covers [2] [2] [4] x o 1).
  { intros is js Hi Hj. pose proof Sx as S1. unfold sums_to_id in S1. rewrite (proj1 (povm_dims _ _ _ Hx)), (proj1 (proj2 (povm_dims _ _ _ Hx))) in S1. transitivity (list_delta is js : CS); [|rewrite toC_1; ring]. rewrite <- (S1 is js Hi Hj).
    apply msum_ext. intros ks Hk. apply inr1_cases in Hk. destruct Hk as (k & Hk & ->). rewrite G by exact Hk. reflexivity. }
  repeat (split; [assumption|]).
  destruct (est_pmf_from_cover qr Hqr x o [2] [4] [2] [[0]] 1 eps Hx Ho NZ ltac:(discriminate) Px Sx Cv ltac:(lra) ltac:(lra) ltac:(repeat constructor) ltac:(discriminate)) as [[_ F]|E]; [right; exact F|left].
  change (S2n (bigd [4]) (map (bigi [4]) [[0]])) with (S2n [4] [[0]]) in E. rewrite E.
  assert (S : rmsum [2] (est_val [2] [2] [4] x o [[0]]) = 2%R).
  { rewrite (rmsum_ext [2] _ (fun ks => share [2] [2] [4] x o ks [0])).
    - unfold rmsum, share. cbn [msum bigsum]. change (proj [2] [0]) with [0]. rewrite (proj1 (M 0 0 ltac:(lia) ltac:(lia))), (proj1 (M 1 0 ltac:(lia) ltac:(lia))), (proj2 (M 0 0 ltac:(lia) ltac:(lia)) eq_refl). cbn. lra.
    - intros ks Hk. rewrite est_val_mean by (first [reflexivity | repeat constructor]). generalize (share [2] [2] [4] x o ks). intros h. unfold rsum. cbn. lra. }
  rewrite S. unfold Rleb. destruct (Rle_dec _ _) as [C|_]; [|reflexivity]. exfalso. pose proof (Rle_abs (2 - 1)). lra.
Qed.
