(** Properties of the variational compression: the distance to the original along
    the sweeps (C81). *)
From Coq Require Import Reals Lra.
From Verif Require Import Oracles PfTrunc PfVarBest2 PfQuasi2 PfEigVal2 ExVarBest ExVarThree Props_Quasi Props_Linalg Examples.
Local Open Scope nat_scope.

(** One update of one or two sites at [pos]: among all states that agree with the
    current one outside of the window and whose ranks do not exceed [mr], the new one
    is the closest to the target [T].  For one site the ranks play no role. *)
Theorem C81_update (qr : nd CS -> res (nd CS * nd CS)) svd ds (T : list nat -> CS) v mr s pos s' :
  qr_sound qr -> svd_sound svd ->
  (forall m n a u s v, is_mat a m n -> svd a = Ok (u, s, v) -> Forall cnonneg s /\ descending (map Cre s)) ->
  1 <= v <= 2 -> v <= List.length ds -> 0 < mr -> ad_ok ds v mr pos (fst s) -> pos <= List.length ds - v ->
  g_local unit v (proj_locl qr svd ds T v mr) s pos = Ok s' ->
  outside pos v (fst s) (fst s') /\ Forall (fun k => k <= mr) (ranks (fst s')) /\
  forall y, mpa_ok y -> mps_like (lts y) ds -> outside pos v (fst s) y -> (v = 2 -> Forall (fun k => k <= mr) (ranks y)) ->
    (Cre (msum ds (fun is => (T is - state (fst s') is) * kconj (T is - state (fst s') is))%K) <=
     Cre (msum ds (fun is => (T is - state y is) * kconj (T is - state y is))%K))%R.
Proof.
  intros Hq Hs Ho Hv Hn Hm Ha Hp E. destruct (best_local qr Hq svd Hs Ho ds T v mr s pos s' Hv Hn Hm Ha Hp E) as (A & B & C).
  split; [exact B|]. split; [apply A|exact C].
Qed.
Print Assumptions C81_update.

(** compress(method='var', var_sites=1 or 2): the result is at least as close to the
    original as the array the sweeps start from. *)
Theorem C81_start (qr : nd CS -> res (nd CS * nd CS)) svd rc (x c c0 : ltens CS) num sv rank v m ov :
  qr_sound qr -> svd_sound svd ->
  (forall m n a u s v, is_mat a m n -> svd a = Ok (u, s, v) -> Forall cnonneg s /\ descending (map Cre s)) ->
  mpa_pos x -> cform_ok x -> canon_true x -> (2 <= llen x -> 1 <= v <= 2 /\ cstart_ok rc x sv rank m) ->
  compression_var qr svd rc x num sv rank v = Ok (c, ov) ->
  match sv with Some s => c0 = s | None => exists k, rank = Some k /\ rc k = Ok c0 end ->
  (Cre (dist2_of x c) <= Cre (dist2_of x c0))%R.
Proof.
  intros Hq Hs Ho Hx Fx Tx H E S0.
  assert (H' : 2 <= llen x -> 1 <= v <= llen x /\ v <= 2 /\ cstart_ok rc x sv rank m) by (intros H2; destruct (H H2) as [V C]; split; [lia|]; split; [lia|exact C]).
  exact (proj1 (var_mono qr Hq svd Hs Ho rc x num sv rank v m (c, ov) Hx Fx Tx H' E) c0 S0).
Qed.
Print Assumptions C81_start.

(** With more sweeps the result does not move away from the original, and the returned
    overlap does not decrease. *)
Theorem C81_sweeps (qr : nd CS -> res (nd CS * nd CS)) svd rc (x c c' : ltens CS) num num' sv rank v m ov ov' :
  qr_sound qr -> svd_sound svd ->
  (forall m n a u s v, is_mat a m n -> svd a = Ok (u, s, v) -> Forall cnonneg s /\ descending (map Cre s)) ->
  mpa_pos x -> cform_ok x -> canon_true x -> (2 <= llen x -> 1 <= v <= 2 /\ cstart_ok rc x sv rank m) ->
  num <= num' ->
  compression_var qr svd rc x num sv rank v = Ok (c, ov) -> compression_var qr svd rc x num' sv rank v = Ok (c', ov') ->
  (Cre (dist2_of x c') <= Cre (dist2_of x c))%R /\ (0 < num -> (Cre ov <= Cre ov')%R).
Proof.
  intros Hq Hs Ho Hx Fx Tx H Hle E E'.
  assert (H' : 2 <= llen x -> 1 <= v <= llen x /\ v <= 2 /\ cstart_ok rc x sv rank m) by (intros H2; destruct (H H2) as [V C]; split; [lia|]; split; [lia|exact C]).
  assert (H1 : 2 <= llen x -> 1 <= v <= llen x /\ cstart_ok rc x sv rank m) by (intros H2; destruct (H' H2) as (V & _ & C); auto).
  pose proof (proj2 (var_mono qr Hq svd Hs Ho rc x num sv rank v m (c, ov) Hx Fx Tx H' E) num' (c', ov') Hle E') as D. cbn [fst] in D. split; [exact D|].
  intros Hn. pose proof (proj2 (C62_overlap CS qr svd rc x c ov num sv rank v m Hq Hs Hx Fx Tx H1 Hn E)) as P1.
  pose proof (proj2 (C62_overlap CS qr svd rc x c' ov' num' sv rank v m Hq Hs Hx Fx Tx H1 ltac:(lia) E')) as P2.
  rewrite P1, P2 in D. assert (CA : forall a b : CS, Cre (a - b)%K = (Cre a - Cre b)%R) by reflexivity. rewrite !CA in D. lra.
Qed.
Print Assumptions C81_sweeps.

(** A start that represents the original stays exact. *)
Corollary C81_exact_start (qr : nd CS -> res (nd CS * nd CS)) svd rc (x c s : ltens CS) num rank v m ov :
  qr_sound qr -> svd_sound svd ->
  (forall m n a u s v, is_mat a m n -> svd a = Ok (u, s, v) -> Forall cnonneg s /\ descending (map Cre s)) ->
  mpa_pos x -> cform_ok x -> canon_true x -> 1 <= v <= 2 -> cstart_ok rc x (Some s) rank m ->
  to_array s = to_array x ->
  compression_var qr svd rc x num (Some s) rank v = Ok (c, ov) -> dist2_of x c = k0.
Proof.
  intros Hq Hs Ho Hx Fx Tx Hv Hst Es E.
  pose proof (C81_start qr svd rc x c s num (Some s) rank v m ov Hq Hs Ho Hx Fx Tx (fun _ => conj Hv Hst) E eq_refl) as D.
  assert (Z : dist2_of x s = k0).
  { unfold dist2_of. apply PfDots.msums_zero. intros is _. unfold entry. rewrite Es. apply cplx_eq; cbn; ring. }
  rewrite Z in D. rewrite PfQuasi.adist_dist in *. pose proof (PfQuasi.adist_nonneg (mshape x) (entry x) (entry c)) as N.
  apply cplx_eq; cbn in *; [lra|reflexivity].
Qed.
Print Assumptions C81_exact_start.

(** Started from the SVD compression to rank [r]: no array [y] of ranks at most [r] is
    closer to [x] than the result by more than the factor sqrt(N-1); on two sites the
    result is the best approximation. *)
Corollary C81_after_svd (qr : nd CS -> res (nd CS * nd CS)) svd rc (x y s c : ltens CS) num r dir ov ov' v :
  qr_sound qr -> svd_sound svd ->
  (forall m n a u s v, is_mat a m n -> svd a = Ok (u, s, v) -> Forall cnonneg s /\ descending (map Cre s)) ->
  mpa_pos x -> cform_ok x -> canon_true x -> 2 <= llen x -> 0 < r -> 1 <= v <= 2 ->
  compress_svd qr svd (truncated_svd svd) x (Some r) None dir true = Ok (s, ov) ->
  compression_var qr svd rc x num (Some s) None v = Ok (c, ov') ->
  mpa_pos y -> mshape y = mshape x -> Forall (fun k => k <= r) (ranks y) ->
  (Cre (dist2_of x c) <= INR (llen x - 1) * Cre (dist2_of x y))%R.
Proof.
  intros Hq Hs Ho Hx Fx Tx Hn Hr Hv E E' Hy My Ry.
  pose proof (C78_rank qr svd x y s r dir ov Hq Hs Ho Hx Fx Tx Hn Hr E Hy My Ry) as D1.
  assert (Nd : dir <> DOther).
  { intros ->. unfold compress_svd in E. destruct (Nat.eqb_spec (llen x) 1); [lia|]. cbn in E. discriminate. }
  pose proof (outc_inv _ _ _ _ (PfCompress.compress_svd_spec svd (truncated_svd svd) Hs (truncated_svd_sound svd Hs) qr Hq 1 1 x (Some r) None dir true (pos_chain _ Hx) (cform_ok_weak x Fx) (fun _ => conj Fx Tx) Hr Logic.I Nd) E) as X3.
  cbn beta iota in X3. destruct X3 as (Cc & Mc & _ & Rc & Fc & Tc & _).
  assert (Hst : cstart_ok rc x (Some s) None r) by (split; [split; [apply chain_pos; exact Cc|split; [exact Fc|split; [exact Tc|exact Mc]]]|exact Rc]).
  pose proof (C81_start qr svd rc x c s num (Some s) None v r ov' Hq Hs Ho Hx Fx Tx (fun _ => conj Hv Hst) E' eq_refl) as D. lra.
Qed.
Print Assumptions C81_after_svd.

(** Two sites with singular values 3 and 2 from the start 5 |00>: the squared error
    falls from 8 to 4 in one sweep. *)
Example C81_ex rc : qr_sound qr_two /\ svd_sound svd_d32 /\ mpa_pos re_x /\ cform_ok re_x /\ canon_true re_x /\
  cstart_ok rc re_x (Some vb_s) None 1 /\ compression_var qr_two svd_d32 rc re_x 1 (Some vb_s) None 2 = Ok (vb_d, toC 9) /\
  ranks vb_d = [1] /\ Cre (dist2_of re_x vb_s) = 8%R /\ Cre (dist2_of re_x vb_d) = 4%R.
Proof.
  split; [exact qr_two_sound|]. split; [exact svd_d32_sound|]. destruct re_x_ok as [H1 [H2 H3]]. split; [exact H1|]. split; [exact H2|]. split; [exact H3|].
  split; [|split; [exact (vb_run rc)|split; [reflexivity|exact vb_dist]]]. destruct vb_s_ok as [G1 [G2 G3]].
  split; [split; [exact G1|split; [exact G2|split; [exact G3|reflexivity]]]|repeat constructor].
Qed.
(** The values of [svd_d32] are sorted; the update at the start meets [C81_update]. *)
Example C81_update_ex :
  (forall m n a u s v, is_mat a m n -> svd_d32 a = Ok (u, s, v) -> Forall cnonneg s /\ descending (map Cre s)) /\
  ad_ok [2; 2] 2 1 0 vb_s /\ g_local unit 2 (proj_locl qr_two svd_d32 [2; 2] (state re_x) 2 1) (vb_s, None) 0 = Ok (vb_c, Some tt).
Proof.
  split; [exact svd_d32_sorted|]. split; [|exact vb_locl]. destruct vb_s_ok as [G1 [G2 G3]].
  split; [exact vb_s_inv|]. split; [exact G2|]. split; [exact G3|]. split; [cbn; lia|]. split; [cbn; lia|repeat constructor].
Qed.

(** For three sites the window is cut bond by bond and the claim fails: the original
    63 |000> + 60 |011> + 80 |101> compressed to rank 1 from the start 80 |101> ends
    in 63 |000>; the squared error grows from 7569 to 10000. *)
Theorem C81_three_sites_refuted : exists (qr : nd CS -> res (nd CS * nd CS)) svd rc (x c s : ltens CS) m ov,
  qr_sound qr /\ svd_sound svd /\
  (forall m n a u s v, is_mat a m n -> svd a = Ok (u, s, v) -> Forall cnonneg s /\ descending (map Cre s)) /\
  mpa_pos x /\ cform_ok x /\ canon_true x /\ cstart_ok rc x (Some s) None m /\ llen x = 3 /\
  compression_var qr svd rc x 1 (Some s) None 3 = Ok (c, ov) /\
  (Cre (dist2_of x s) < Cre (dist2_of x c))%R.
Proof.
  exists qr_vt, svd_vt, (fun _ => Err ValueError), vt_x, vt_d, vt_s, 1, (toC 3969).
  split; [exact qr_vt_sound|]. split; [exact svd_vt_sound|]. split; [exact svd_vt_sorted|].
  destruct vt_x_ok as [H1 [H2 H3]]. split; [exact H1|]. split; [exact H2|]. split; [exact H3|].
  split; [|split; [reflexivity|split; [exact (vt_run _)|]]].
  - destruct vt_s_ok as [G1 [G2 G3]]. split; [split; [exact G1|split; [exact G2|split; [exact G3|reflexivity]]]|repeat constructor].
  - destruct vt_dist as [D1 D2]. rewrite D1, D2. lra.
Qed.
Print Assumptions C81_three_sites_refuted.
