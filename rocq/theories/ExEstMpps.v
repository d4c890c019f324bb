(** Examples for [est_pmf_from_mpps]. *)
From Coq Require Import Reals Lra.
From Verif Require Export PfEstMpps PfMatchEx.
Open Scope nat_scope.
Add Ring Cr : (k_ring CS).

(** The basis measurement on both sites twice, with four and with eight samples *)
Theorem two_members qr eps : qr_sound qr -> (0 < eps)%R -> exists x o rho P, povm_ok x [4; 1] [2; 2] /\ psd_elems x /\ sums_to_id x /\ unit_trace [2; 2] rho /\ born_prob x rho P /\
  let b := mkMeas o [2; 2] (fun _ => (1 / 4)%R) in
  Forall (exact_member x [4; 1] [2; 2] rho) [(b, two_rows); (b, two_rows ++ two_rows)] /\ regular x [4; 1] [2; 2] rho b /\
  outc (qr_fails qr) (est_pmf_from_mpps qr x [o; o] [S2n [2; 2] two_rows; S2n [2; 2] (two_rows ++ two_rows)] eps) (fun r => r = [(Fin (1 / 4), 12); (Fin (1 / 4), 12); (NaN, 0); (NaN, 0)]).
Proof.
  intros Hqr He. destruct ex_two as (x & o & Hx & Ho & Px & Sx & Po & So & Ex & Eo). set (rho := mixed (1 / 4)).
  set (P := fun ks : list nat => (1 / 4)%R). exists x, o, rho, P.
  destruct (two_sep x o Ex Eo) as [Sep Sm]. pose proof (two_nonzero x o Ex Eo) as NZ. pose proof (two_covers x o Ex Eo) as Cv.
  assert (Tr : unit_trace [2; 2] rho) by (apply mixed_trace; change (size [2; 2]) with 4; rewrite INR_IZR_INZ; change (Z.of_nat 4) with 4%Z; lra).
  assert (BP : born_prob x rho P).
  { intros ks Hk. rewrite (proj1 (povm_dims _ _ _ Hx)) in Hk. unfold rho. rewrite (mixed_born ex_lx x (1 / 4) Hx Ex ks Hk). f_equal. apply inr2_cases in Hk. destruct Hk as (k & l & Hk & Hl & ->). assert (l = 0) by lia. subst l. unfold P. clear -Hk. enum k; unfold rmsum; cbn; lra. }
  split; [exact Hx|]. split; [exact Px|]. split; [exact Sx|]. split; [exact Tr|]. split; [exact BP|]. cbv zeta. set (b := mkMeas o [2; 2] (fun _ => (1 / 4)%R)).
  assert (BQ : born_prob o rho (me_p b)).
  { intros ks Hk. rewrite (proj1 (povm_dims _ _ _ Ho)) in Hk. unfold rho. rewrite (mixed_born ex_lo o (1 / 4) Ho Eo ks Hk). f_equal. apply inr2_cases in Hk. destruct Hk as (k & l & Hk & Hl & ->). cbn [me_p b]. clear -Hk Hl. enum k; enum l; unfold rmsum; cbn; lra. }
  assert (T : forall k l, k < 4 -> l < 2 -> mt [2; 2] [4; 1] [2; 2] x o [k; 0] [l; 0] = Nat.eqb k l /\ (k = l -> pfac [2; 2] [4; 1] [2; 2] x o [k; 0] [l; 0] = (1 / 2)%R)) by (intros k l Hk Hl; apply (two_mt x o Ex Eo k l Hk Hl)).
  assert (EM : Forall (exact_member x [4; 1] [2; 2] rho) [(b, two_rows); (b, two_rows ++ two_rows)]).
  { assert (G : forall l, Forall (fun l => inr l [2; 2]) l -> l <> [] -> exact_freqs [2; 2] (me_p b) l -> exact_member x [4; 1] [2; 2] rho (b, l)).
    { intros l Hr Hl Fr. split; [exact Ho|]. split; [exact NZ|]. split; [exact Hr|]. split; [exact Hl|]. split; [exact Po|]. split; [exact BQ|]. split; [exact Sep|]. split; [exact Sm|]. split; [exact Fr|]. right. exists (1 / 2)%R. split; [exact Cv|lra]. }
    constructor; [|constructor; [|constructor]]; (apply G; [repeat constructor|discriminate|]); intros l Hl; apply inr2_cases in Hl; destruct Hl as (k & l' & Hk & Hl & ->); cbn [me_p b]; clear -Hk Hl; enum k; enum l'; cbn; lra. }
  split; [exact EM|]. split.
  { split; [exact Ho|]. split; [exact NZ|]. split; [exact Po|]. split; [exact So|]. split; [exact BQ|]. split; [exact Sep|]. split; [exact Sm|]. right. exists (1 / 2)%R. split; [exact Cv|]. split; [lra|].
    intros ls Hl. change (inr ls [2; 1]) in Hl. apply inr2_cases in Hl. destruct Hl as (l & m & Hl & Hm & ->). assert (m = 0) by lia. subst m. cbn [me_x me_n b].
    unfold rmsum. cbn [msum bigsum]. rewrite !(fun k Hk => proj1 (T k l Hk Hl)) by lia. pose proof (fun k Hk => proj2 (T k l Hk Hl)) as T2. clear -Hl T2. enum l; cbn [Nat.eqb].
    - rewrite (T2 0 ltac:(lia) eq_refl). cbn. lra.
    - rewrite (T2 1 ltac:(lia) eq_refl). cbn. lra. }
  pose proof (mpps_exact qr Hqr x [4; 1] [2; 2] eps Hx ltac:(discriminate) Px Sx He rho P Tr BP _ EM) as R.
  change (map (fun q : meas * list (list nat) => me_x (fst q)) [(b, two_rows); (b, two_rows ++ two_rows)]) with [o; o] in R.
  change (map smpl [(b, two_rows); (b, two_rows ++ two_rows)]) with [S2n [2; 2] two_rows; S2n [2; 2] (two_rows ++ two_rows)] in R.
  apply (outc_weaken _ _ _ _ _ R (fun f => f)). cbn beta. intros r ->.
  assert (G : forall k, k < 4 -> gives x [4; 1] [2; 2] b [k; 0] = Nat.ltb k 2) by (intros k Hk; exact (two_given x o Ex Eo k Hk)).
  assert (U : forall l, used x [4; 1] [2; 2] (b, l) = length (filter (fun ls => existsb (fun ks => mt [2; 2] [4; 1] [2; 2] x o ks (proj [4; 1] ls)) [[0; 0]; [1; 0]; [2; 0]; [3; 0]]) l)) by reflexivity.
  change (outcomes [4; 1]) with [[0; 0]; [1; 0]; [2; 0]; [3; 0]]. cbn [map existsb fst filter]. rewrite !G by lia. cbn [Nat.ltb Nat.leb orb map]. rewrite !U. unfold two_rows. cbn [app filter proj zip2 Nat.ltb Nat.leb existsb].
  rewrite !(fun k l Hk Hl => proj1 (T k l Hk Hl)) by lia. reflexivity.
Qed.

(** A measurement of two outcomes that tells nothing, estimated from no measurement at all: one
    sample is said to be used, whatever the number of samples is. *)
Definition s_coin : dsite := rows_site 2 [[1 / 2; 1 / 2]; [1 / 2; 1 / 2]]%R.
Lemma coin_ok : dsite_ok s_coin.
Proof.
  assert (I : forall i, i < 2 -> i = 0 \/ i = 1) by lia. split; [cbn; lia|]. split; [cbn; lia|]. split.
  - intros k i Hk Hi. destruct (I i Hi) as [-> | ->]; cbn in Hk; do 2 (try (destruct k as [|k]; [cbn; lra|])); exfalso; lia.
  - intros i Hi. destruct (I i Hi) as [-> | ->]; unfold rbig; cbn; lra.
Qed.
Theorem coin_used qr eps n : qr_sound qr -> (0 < eps)%R -> 0 < n -> exists x o, povm_ok x [2] [2] /\ povm_ok o [1] [2] /\ psd_elems x /\ sums_to_id x /\ psd_elems o /\ sums_to_id o /\ nonzero_elems [2] [2] [1] x o /\
  (forall ks ls, inr ks [2] -> inr ls [1] -> mt [2] [2] [1] x o ks ls = true) /\
  outc (qr_fails qr) (est_pmf_from qr x o (S2n [] (repeat [] n)) eps) (fun r => r = ([Fin (1 / 2); Fin (1 / 2)], 1)).
Proof.
  intros Hqr He Hn. destruct (one_povm s_coin coin_ok) as (x & Hx & Px & Sx & Ex). destruct (one_povm s_one one_ok) as (o & Ho & Po & So & Eo).
  change [dn s_coin] with [2] in *. change [dh s_coin] with [2] in *. change [dn s_one] with [1] in *. change [dh s_one] with [2] in *. exists x, o.
  assert (I1 : forall k n, k < n -> inr [k] [n]) by (intros; apply inr_cons; [assumption|constructor]).
  assert (Od : forall l, l < 1 -> (0 < rdot [s_coin] (odiag [s_coin] [s_one] [l]) (odiag [s_coin] [s_one] [l]))%R) by (intros l Hl; enum l; rcalc).
  assert (NZ : nonzero_elems [2] [2] [1] x o).
  { apply (diag_nonzero [s_coin] [s_one] eq_refl x o Ex Eo); intros ks Hk; [change (inr ks [2]) in Hk|change (inr ks [1]) in Hk]; apply inr1_cases in Hk; destruct Hk as (k & Hk & ->); [enum k; rcalc|apply Od; exact Hk]. }
  assert (M : forall k l, k < 2 -> l < 1 -> mt [2] [2] [1] x o [k] [l] = true /\ pfac [2] [2] [1] x o [k] [l] = (1 / 2)%R).
  { intros k l Hk Hl. destruct (diag_prop [s_coin] [s_one] eq_refl x o Ex Eo (1 / 2) [k] [l] (I1 k 2 Hk) (I1 l 1 Hl)) as [A B]; [lra|apply Od; exact Hl| |split; assumption].
    intros is Hi. change (inr is [2]) in Hi. apply inr1_cases in Hi. destruct Hi as (i & Hi & ->). enum k; enum l; enum i; unfold xdiag, odiag; cbn; lra. }
  assert (G : forall k, k < 2 -> is_given [2] [2] [1] x o [k] = true).
  { intros k Hk. unfold is_given. change (outcomes (merge_dims [2] [1])) with [[0]]. cbn [existsb]. rewrite (proj1 (M k 0 Hk ltac:(lia))). reflexivity. }
  assert (Cv : covers [2] [2] [1] x o 1).
  { intros is js Hi Hj. pose proof Sx as S1. unfold sums_to_id in S1. rewrite (proj1 (povm_dims _ _ _ Hx)), (proj1 (proj2 (povm_dims _ _ _ Hx))) in S1. transitivity (list_delta is js : CS); [|rewrite toC_1; ring]. rewrite <- (S1 is js Hi Hj).
    apply msum_ext. intros ks Hk. apply inr1_cases in Hk. destruct Hk as (k & Hk & ->). rewrite G by exact Hk. reflexivity. }
  repeat (split; [assumption|]). split.
  { intros ks ls Hk Hl. apply inr1_cases in Hk, Hl. destruct Hk as (k & Hk & ->), Hl as (l & Hl & ->). apply (M k l Hk Hl). }
  assert (Rw : Forall (fun l => inr l [1]) (repeat [0] n)) by (apply Forall_forall; intros l Hl; apply repeat_spec in Hl; subst l; apply I1; lia).
  assert (Rn : repeat [0] n <> []) by (destruct n; [lia|discriminate]).
  assert (U : forall ls, inr ls (merge_dims [2] [1]) -> rmsum [2] (fun ks => if mt [2] [2] [1] x o ks ls then pfac [2] [2] [1] x o ks ls else 0%R) = 1%R).
  { intros ls Hl. change (inr ls [1]) in Hl. apply inr1_cases in Hl. destruct Hl as (l & Hl & ->). unfold rmsum. cbn [msum bigsum]. rewrite (proj1 (M 0 l ltac:(lia) Hl)), (proj1 (M 1 l ltac:(lia) Hl)), (proj2 (M 0 l ltac:(lia) Hl)), (proj2 (M 1 l ltac:(lia) Hl)). cbn. lra. }
  pose proof (est_pmf_from_always qr Hqr x o [2] [1] [2] (repeat [0] n) 1 eps Hx Ho NZ ltac:(discriminate) Px Sx Cv ltac:(lra) He U Rw Rn) as R.
  replace (S2n (bigd [1]) (map (bigi [1]) (repeat [0] n))) with (S2n [] (repeat [] n)) in R by (unfold S2n; cbn [bigd filter Nat.ltb Nat.leb]; f_equal; clear; induction n as [|n IH]; [reflexivity|]; cbn [repeat map]; rewrite <- IH; reflexivity).
  apply (outc_weaken _ _ _ _ _ R (fun f => f)). cbn beta. intros r ->. unfold est_array. change (outcomes [2]) with [[0]; [1]]. cbn [map]. rewrite !G by lia.
  assert (V : forall k, k < 2 -> est_val [2] [2] [1] x o (repeat [0] n) [k] = (1 / 2)%R).
  { intros k Hk. rewrite est_val_mean by (reflexivity || exact Rw). rewrite repeat_length.
    assert (S : rsum (map (share [2] [2] [1] x o [k]) (repeat [0] n)) = (INR n * (1 / 2))%R).
    { clear -M Hk. induction n as [|n IH]; [unfold rsum; cbn; lra|]. cbn [repeat map]. rewrite rsum_cons, IH, S_INR. unfold share. change (proj [2] [0]) with [0]. rewrite (proj1 (M k 0 Hk ltac:(lia))), (proj2 (M k 0 Hk ltac:(lia))). lra. }
    rewrite S. field. apply not_0_INR. lia. }
  rewrite !V by lia. reflexivity.
Qed.
