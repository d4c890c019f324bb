(** Properties of the SVD compression: independence of the factorisations, agreement
    with the dense reference of the tests (C79). *)
From Coq Require Import Reals Lra.
From Verif Require Import Oracles PfTrunc PfRelErr PfBounds PfUnique2 ExUnique Examples.
Local Open Scope nat_scope.

(** compress(method='svd', rank=r), run with any other correct routines on any other
    MPA that represents the same array, gives the same array, if the values dropped are
    separated from the values kept. *)
Theorem C79_rank (qr : nd CS -> res (nd CS * nd CS)) svd (x z : ltens CS) r dir ov :
  qr_sound qr -> svd_sound svd ->
  (forall m n a u s v, is_mat a m n -> svd a = Ok (u, s, v) -> Forall cnonneg s /\ descending (map Cre s)) ->
  mpa_pos x -> cform_ok x -> canon_true x -> 2 <= llen x -> 0 < r ->
  compress_svd qr svd (truncated_svd svd) x (Some r) None dir true = Ok (z, ov) ->
  exists ys,
    truncs (mshape x) (entry x) (if goes_left x dir then rev (seq 1 (llen x - 1)) else seq 1 (llen x - 1)) ys (entry z) /\
    dist2_of x z = dweights ys /\ Forall (fun y => snd y = Nat.min (length (fst y)) r) ys /\
    (Forall separated ys -> forall (qr' : nd CS -> res (nd CS * nd CS)) svd' (x' z' : ltens CS) dir' ov',
       qr_sound qr' -> svd_sound svd' ->
       (forall m n a u s v, is_mat a m n -> svd' a = Ok (u, s, v) -> Forall cnonneg s /\ descending (map Cre s)) ->
       mpa_pos x' -> cform_ok x' -> canon_true x' -> mshape x' = mshape x -> to_array x' = to_array x -> goes_left x' dir' = goes_left x dir ->
       compress_svd qr' svd' (truncated_svd svd') x' (Some r) None dir' true = Ok (z', ov') ->
       to_array z' = to_array z /\ ov' = ov).
Proof.
  intros Hq Hs Ho Hx Hc HT Hn Hr E.
  destruct (run_rank qr svd Hq Hs Ho x z r dir ov Hx (cform_ok_weak x Hc) HT Hn Hr E) as [ys [TR [DW TK]]].
  exists ys. split; [exact TR|]. split; [exact DW|]. split; [eapply Forall_impl; [|exact TK]; intros y [_ H]; exact H|].
  intros SEP qr' svd' x' z' dir' ov' Hq' Hs' Ho' Hx' Hc' HT' M A GL E'.
  pose proof (llen_shape x' x M) as Ln.
  destruct (run_rank qr' svd' Hq' Hs' Ho' x' z' r dir' ov' Hx' (cform_ok_weak x' Hc') HT' ltac:(lia) Hr E') as [ys' [TR' [_ TK']]].
  destruct (result_facts qr svd (truncated_svd svd) Hq Hs (truncated_svd_sound svd Hs) x z (Some r) None dir ov Hx Hc HT Hn Hr I E) as [Oz [Mz Ez]].
  destruct (result_facts qr' svd' (truncated_svd svd') Hq' Hs' (truncated_svd_sound svd' Hs') x' z' (Some r) None dir' ov' Hx' Hc' HT' ltac:(lia) Hr I E') as [Oz' [Mz' Ez']].
  rewrite GL in TR'.
  assert (AZ : to_array z' = to_array z).
  { apply (two_runs x x' z z' (fun _ => r) (goes_left x dir) ys ys' (fun _ _ _ _ _ => eq_refl) Oz Oz' Mz Mz' M A TR TR' TK TK').
    apply (separated_gaps (fun _ => r)); auto. }
  split; [exact AZ|]. rewrite Ez, Ez'. apply norm2_same; [congruence|exact AZ].
Qed.
Print Assumptions C79_rank.

(** The same with relerr. *)
Theorem C79_relerr (qr : nd CS -> res (nd CS * nd CS)) svd svdfunc (x z : ltens CS) rank e dir ov :
  qr_sound qr -> svd_sound svd -> tsvd_sound svdfunc ->
  (forall m n a u s v, is_mat a m n -> svd a = Ok (u, s, v) -> Forall cnonneg s /\ descending (map Cre s)) ->
  mpa_pos x -> cform_ok x -> canon_true x -> 2 <= llen x -> rank_pos rank ->
  compress_svd_re qr svd svdfunc x rank (Some e) dir true = Ok (z, ov) ->
  exists ys,
    truncs (mshape x) (entry x) (if goes_left x dir then rev (seq 1 (llen x - 1)) else seq 1 (llen x - 1)) ys (entry z) /\
    dist2_of x z = dweights ys /\
    (Forall separated ys -> forall (qr' : nd CS -> res (nd CS * nd CS)) svd' svdfunc' (x' z' : ltens CS) dir' ov',
       qr_sound qr' -> svd_sound svd' -> tsvd_sound svdfunc' ->
       (forall m n a u s v, is_mat a m n -> svd' a = Ok (u, s, v) -> Forall cnonneg s /\ descending (map Cre s)) ->
       mpa_pos x' -> cform_ok x' -> canon_true x' -> mshape x' = mshape x -> to_array x' = to_array x -> goes_left x' dir' = goes_left x dir ->
       compress_svd_re qr' svd' svdfunc' x' rank (Some e) dir' true = Ok (z', ov') ->
       to_array z' = to_array z /\ ov' = ov).
Proof.
  intros Hq Hs Ht Ho Hx Hc HT Hn Hr E.
  destruct (run_re qr svd Hq Hs Ho svdfunc x z rank e dir ov Ht Hx (cform_ok_weak x Hc) HT Hn Hr E) as [He [ys [TR [DW TK]]]].
  exists ys. split; [exact TR|]. split; [exact DW|].
  intros SEP qr' svd' svdfunc' x' z' dir' ov' Hq' Hs' Ht' Ho' Hx' Hc' HT' M A GL E'.
  pose proof (llen_shape x' x M) as Ln.
  destruct (run_re qr' svd' Hq' Hs' Ho' svdfunc' x' z' rank e dir' ov' Ht' Hx' (cform_ok_weak x' Hc') HT' ltac:(lia) Hr E') as [_ [ys' [TR' [_ TK']]]].
  apply re_range in E; [|exact Hn]. apply re_range in E'; [|lia]. destruct E as [_ E], E' as [_ E'].
  destruct (result_facts qr svd svdfunc Hq Hs Ht x z rank (Some (relerr_count e)) dir ov Hx Hc HT Hn Hr (relerr_count_pos e) E) as [Oz [Mz Ez]].
  destruct (result_facts qr' svd' svdfunc' Hq' Hs' Ht' x' z' rank (Some (relerr_count e)) dir' ov' Hx' Hc' HT' ltac:(lia) Hr (relerr_count_pos e) E') as [Oz' [Mz' Ez']].
  rewrite GL in TR'.
  assert (AZ : to_array z' = to_array z).
  { apply (two_runs x x' z z' (kap_re rank e) (goes_left x dir) ys ys' (kap_re_same rank e He) Oz Oz' Mz Mz' M A TR TR' TK TK').
    apply (separated_gaps (kap_re rank e)); auto. intros s. unfold kap_re. pose proof (relerr_count_pos e s). destruct rank; cbn in Hr; lia. }
  split; [exact AZ|]. rewrite Ez, Ez'. apply norm2_same; [congruence|exact AZ].
Qed.
Print Assumptions C79_relerr.

(** The comparison made in the tests: for one leg per site the result represents the
    array that the dense reference computes with any correct SVD routine. *)
Theorem C79_reference (qr : nd CS -> res (nd CS * nd CS)) svd (x z : ltens CS) ds r dir ov :
  qr_sound qr -> svd_sound svd ->
  (forall m n a u s v, is_mat a m n -> svd a = Ok (u, s, v) -> Forall cnonneg s /\ descending (map Cre s)) ->
  mpa_pos x -> mshape x = map (fun d => [d]) ds -> cform_ok x -> canon_true x -> 2 <= llen x -> 0 < r ->
  compress_svd qr svd (truncated_svd svd) x (Some r) None dir true = Ok (z, ov) ->
  exists ys,
    truncs (mshape x) (entry x) (if goes_left x dir then rev (seq 1 (llen x - 1)) else seq 1 (llen x - 1)) ys (entry z) /\
    dist2_of x z = dweights ys /\
    (Forall separated ys -> forall svd' b retproj ps,
       svd_sound svd' -> (forall m n a u s v, is_mat a m n -> svd' a = Ok (u, s, v) -> Forall cnonneg s /\ descending (map Cre s)) ->
       ref_compression_svd svd' (to_array x) r (negb (goes_left x dir)) retproj = Ok (b, ps) -> b = to_array z).
Proof.
  intros Hq Hs Ho Hx Mx Hc HT Hn Hr E.
  destruct (run_rank qr svd Hq Hs Ho x z r dir ov Hx (cform_ok_weak x Hc) HT Hn Hr E) as [ys [TR [DW TK]]].
  exists ys. split; [exact TR|]. split; [exact DW|]. intros SEP svd' b rp ps Hs' Ho' E'.
  destruct (result_facts qr svd (truncated_svd svd) Hq Hs (truncated_svd_sound svd Hs) x z (Some r) None dir ov Hx Hc HT Hn Hr I E) as [Oz [Mz Ez]].
  apply (ref_agrees svd' Hs' Ho' x z ds r (goes_left x dir) ys b rp ps Hx Mx Oz Mz TR TK); [|exact E'].
  apply (separated_gaps (fun _ => r)); auto.
Qed.
Print Assumptions C79_reference.
(** On the matrix [x] of a two-site array that reference keeps the larger value. *)
Example C79_reference_ex : exists z ov b,
  compress_svd (fun _ => Err LinAlgError) svd_d32 (truncated_svd svd_d32) re_x (Some 1) None DRight true = Ok (z, ov) /\
  ref_compression_svd svd_d32 (to_array re_x) 1 true true = Ok b /\ fst b = to_array z /\
  shp (fst b) = [2; 2] /\ map Cre (dat (fst b)) = [3; 0; 0; 0]%R /\
  goes_left re_x DRight = false /\ separated (ExRelErr.cs [3; 2]%R, 1).
Proof.
  destruct rank_run3 as [z [ov [E1 [E2 E3]]]]. destruct ref_run3 as [b [F1 [F2 [F3 F4]]]]. exists z, ov, b.
  split; [exact E1|]. split; [exact F1|]. split; [rewrite F4; symmetry; exact E3|]. split; [exact F2|]. split; [exact F3|]. split; [reflexivity|]. right. cbn. lra.
Qed.

(** Without the separation the result depends on the routine: an array with two equal
    singular values, and two correct routines that list them in different orders. *)
Theorem C79_ties_refuted : exists svd svd' (x z z' : ltens CS) ov ov',
  svd_sound svd /\ svd_sound svd' /\
  (forall m n a u s v, is_mat a m n -> svd a = Ok (u, s, v) -> Forall cnonneg s /\ descending (map Cre s)) /\
  (forall m n a u s v, is_mat a m n -> svd' a = Ok (u, s, v) -> Forall cnonneg s /\ descending (map Cre s)) /\
  mpa_pos x /\ cform_ok x /\ canon_true x /\
  compress_svd (fun _ => Err LinAlgError) svd (truncated_svd svd) x (Some 1) None DRight true = Ok (z, ov) /\
  compress_svd (fun _ => Err LinAlgError) svd' (truncated_svd svd') x (Some 1) None DRight true = Ok (z', ov') /\
  to_array z <> to_array z'.
Proof. exact ties_example. Qed.
Print Assumptions C79_ties_refuted.

(** The list of projectors that the reference promises is lost for direction='left'. *)
Theorem C79_projectors_left (K : StarRing) svd (a : nd K) r b ps :
  ref_compression_svd svd a r false true = Ok (b, ps) -> ps = None.
Proof. unfold ref_compression_svd. destruct (ref_loop svd true r _ a []) as [[c qs]|]; cbn; [|discriminate]. intros E. injection E as _ <-. reflexivity. Qed.
Print Assumptions C79_projectors_left.
Theorem C79_projectors_refuted : exists (a b : nd GZ), ref_compression_svd svd_gz a 1 false true = Ok (b, None) /\ shp b = shp a.
Proof. exists (mkNd [2; 2] [gi 3; gi 0; gi 0; gi 2]). eexists. split; vm_compute; reflexivity. Qed.
Print Assumptions C79_projectors_refuted.

(** singularvals: the values of a cut are determined by the array, whatever the
    representation and the routines (up to zeros at the end). *)
Theorem C79_values (qr qr' : nd CS -> res (nd CS * nd CS)) svd svd' (x x' z z' : ltens CS) ss ss' :
  qr_sound qr -> svd_sound svd -> (forall a u s v, svd a = Ok (u, s, v) -> Forall cnonneg s /\ descending (map Cre s)) ->
  qr_sound qr' -> svd_sound svd' -> (forall a u s v, svd' a = Ok (u, s, v) -> Forall cnonneg s /\ descending (map Cre s)) ->
  mpa_pos x -> cform_ok x -> canon_true x -> mpa_pos x' -> cform_ok x' -> canon_true x' -> 2 <= llen x ->
  mshape x' = mshape x -> to_array x' = to_array x ->
  singularvals qr svd x = Ok (ss, z) -> singularvals qr' svd' x' = Ok (ss', z') ->
  forall j c, nth c (nth j ss []) k0 = nth c (nth j ss' []) k0.
Proof.
  intros Hq Hs Ho Hq' Hs' Ho' Hx Hc HT Hx' Hc' HT' Hn M A E E' j c.
  exact (values_api qr qr' svd svd' x x' z z' ss ss' Hq Hs Ho Hq' Hs' Ho' Hx Hc HT Hx' Hc' HT' Hn M A E E' j c).
Qed.
Print Assumptions C79_values.
