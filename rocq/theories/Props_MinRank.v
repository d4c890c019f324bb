(** Properties of the SVD compression: minimal ranks (C82). *)
From Coq Require Import Reals Lra.
From Verif Require Import Oracles PfTrunc PfRelErr PfMinRank ExQuasi ExVarThree Props_Canon Examples.
Local Open Scope nat_scope.

(** compress(method='svd', relerr=e) never leaves a rank larger than that of any other
    MPArray [y] which represents the same array as the original. *)
Theorem C82_below (qr : nd CS -> res (nd CS * nd CS)) svd svdfunc (x y z : ltens CS) rank e dir ov :
  qr_sound qr -> svd_sound svd -> tsvd_sound svdfunc ->
  (forall m n a u s v, is_mat a m n -> svd a = Ok (u, s, v) -> Forall cnonneg s /\ descending (map Cre s)) ->
  mpa_pos x -> cform_ok x -> canon_true x -> 2 <= llen x -> rank_pos rank ->
  compress_svd_re qr svd svdfunc x rank (Some e) dir true = Ok (z, ov) ->
  mpa_pos y -> mshape y = mshape x -> to_array y = to_array x ->
  Forall2 le (ranks z) (ranks y).
Proof.
  intros Hq Hs Ht Ho Hx Hc HT Hn Hr E. exact (min_ranks qr Hq svd svdfunc Hs Ht Ho x y z rank e dir ov Hx (cform_ok_weak x Hc) HT Hn Hr E).
Qed.
Print Assumptions C82_below.

(** relerr=0: the result represents the same array, with the smallest ranks of all
    MPArrays that do, at every bond. *)
Theorem C82_minimal (qr : nd CS -> res (nd CS * nd CS)) svd svdfunc (x z : ltens CS) dir ov :
  qr_sound qr -> svd_sound svd -> tsvd_sound svdfunc ->
  (forall m n a u s v, is_mat a m n -> svd a = Ok (u, s, v) -> Forall cnonneg s /\ descending (map Cre s)) ->
  mpa_pos x -> cform_ok x -> canon_true x -> 2 <= llen x ->
  compress_svd_re qr svd svdfunc x None (Some 0%R) dir true = Ok (z, ov) ->
  mpa_pos z /\ mshape z = mshape x /\ to_array z = to_array x /\ cform_ok z /\ canon_true z /\
  forall y, mpa_pos y -> mshape y = mshape x -> to_array y = to_array x -> Forall2 le (ranks z) (ranks y).
Proof.
  intros Hq Hs Ht Ho Hx Hc HT Hn E.
  pose proof (re_range qr svd svdfunc x None 0%R dir true z ov Hn E) as [_ E'].
  assert (Nd : dir <> DOther).
  { intros ->. unfold compress_svd in E'. destruct (Nat.eqb_spec (llen x) 1); [lia|]. destruct (max_rank x); cbn in E'; discriminate. }
  pose proof (outc_inv _ _ _ _ (PfCompress.compress_svd_spec svd svdfunc Hs Ht qr Hq 1 1 x None (Some (relerr_count 0)) dir true (pos_chain _ Hx) (cform_ok_weak x Hc) (fun _ => conj Hc HT) Logic.I (relerr_count_pos 0) Nd) E') as X3.
  cbn beta iota in X3. destruct X3 as (Cz & Mz & _ & _ & Fz & Tz & _). pose proof (chain_pos z Cz) as Hz.
  split; [exact Hz|]. split; [exact Mz|]. split; [exact (zero_exact qr Hq svd svdfunc Hs Ht Ho x z dir ov Hx (cform_ok_weak x Hc) HT Hn E Hz Mz)|].
  split; [exact Fz|]. split; [exact Tz|]. intros y Hy My Ey.
  exact (C82_below qr svd svdfunc x y z None 0%R dir ov Hq Hs Ht Ho Hx Hc HT Hn Logic.I E Hy My Ey).
Qed.
Print Assumptions C82_minimal.

(** So the ranks after compress(relerr=0) only depend on the array represented. *)
Corollary C82_unique (qr qr' : nd CS -> res (nd CS * nd CS)) svd svd' svdfunc svdfunc' (x x' z z' : ltens CS) dir dir' ov ov' :
  qr_sound qr -> svd_sound svd -> tsvd_sound svdfunc ->
  (forall m n a u s v, is_mat a m n -> svd a = Ok (u, s, v) -> Forall cnonneg s /\ descending (map Cre s)) ->
  qr_sound qr' -> svd_sound svd' -> tsvd_sound svdfunc' ->
  (forall m n a u s v, is_mat a m n -> svd' a = Ok (u, s, v) -> Forall cnonneg s /\ descending (map Cre s)) ->
  mpa_pos x -> cform_ok x -> canon_true x -> 2 <= llen x -> mpa_pos x' -> cform_ok x' -> canon_true x' ->
  mshape x' = mshape x -> to_array x' = to_array x ->
  compress_svd_re qr svd svdfunc x None (Some 0%R) dir true = Ok (z, ov) ->
  compress_svd_re qr' svd' svdfunc' x' None (Some 0%R) dir' true = Ok (z', ov') -> ranks z' = ranks z.
Proof.
  intros Hq Hs Ht Ho Hq' Hs' Ht' Ho' Hx Hc HT Hn Hx' Hc' HT' M A E E'.
  destruct (C82_minimal qr svd svdfunc x z dir ov Hq Hs Ht Ho Hx Hc HT Hn E) as (P & Mz & Az & _ & _ & B).
  destruct (C82_minimal qr' svd' svdfunc' x' z' dir' ov' Hq' Hs' Ht' Ho' Hx' Hc' HT' ltac:(rewrite (llen_shape x' x M); exact Hn) E') as (P' & Mz' & Az' & _ & _ & B').
  assert (F1 : Forall2 le (ranks z) (ranks z')) by (apply B; [exact P'|congruence|congruence]).
  assert (F2 : Forall2 le (ranks z') (ranks z)) by (apply B'; [exact P|congruence|congruence]).
  clear -F1 F2. induction F1 as [|a b l m H F IH]; [inversion F2; reflexivity|]. inversion F2; subst. f_equal; [lia|auto].
Qed.
Print Assumptions C82_unique.

(** The rank left at a bond is the number of singular values there that do not vanish. *)
Theorem C82_singularvals (qr : nd CS -> res (nd CS * nd CS)) svd svdfunc (x z w : ltens CS) dir ov ss :
  qr_sound qr -> svd_sound svd -> tsvd_sound svdfunc ->
  (forall a u s v, svd a = Ok (u, s, v) -> Forall cnonneg s /\ descending (map Cre s)) ->
  mpa_pos x -> cform_ok x -> canon_true x -> 2 <= llen x -> norm2_of x <> k0 ->
  compress_svd_re qr svd svdfunc x None (Some 0%R) dir true = Ok (z, ov) ->
  singularvals qr svd x = Ok (ss, w) ->
  forall j c, j < llen x - 1 -> c < length (nth j ss []) -> (nth c (nth j ss []) k0 <> k0 <-> c < nth j (ranks z) 0).
Proof.
  intros Hq Hs Ht Ho Hx Hc HT Hn Hz E E2 j c Hj Hlen.
  assert (Ho' : svd_sorted svd) by (intros m n a u s v _ Es; exact (Ho a u s v Es)).
  destruct (C82_minimal qr svd svdfunc x z dir ov Hq Hs Ht Ho' Hx Hc HT Hn E) as (P & Mz & Az & _).
  pose proof (outc_inv _ _ _ _ (C29_singularvals CS qr svd x Hq Hs Hx Hc HT Hn) E2) as (L & CV & NM & FS & _).
  assert (SV : forall i, i < llen x - 1 -> sorted_values (nth i ss [])).
  { intros i Hi. rewrite Forall_forall in FS. destruct (FS (nth i ss []) ltac:(apply nth_In; lia)) as (m & u & s' & v & k & Es & ->).
    destruct (Ho _ _ _ _ Es) as [S1 S2]. exact (sorted_firstn k s' (conj S1 S2)). }
  replace (nth j (ranks z) 0) with (bond z (S j)) by (unfold bond; rewrite Nat.sub_succ, Nat.sub_0_r; reflexivity).
  split.
  - intros N. destruct (le_lt_dec (bond z (S j)) c) as [H|H]; [|exact H]. exfalso. apply N.
    refine (cut_svd_tail x (S j) (nth j ss []) (bond z (S j)) (CV j Hj) (SV j Hj) _ c (conj H Hlen)).
    apply (cut_rank_ext (mshape x) (entry z)); [intros is _; unfold entry; rewrite Az; reflexivity|]. rewrite <- Mz. apply mpa_cut_rank; [exact P|]. rewrite (llen_shape z x Mz). lia.
  - intros H N.
    assert (T : forall d, c <= d < length (nth j ss []) -> nth d (nth j ss []) k0 = k0) by (intros d Hd; exact (sorted_zero _ c d (SV j Hj) N Hd)).
    destruct c as [|c].
    + apply Hz. rewrite <- (NM j Hj). apply bigsum_zero. intros d Hd. rewrite T by lia. apply cplx_eq; cbn; ring.
    + assert (B : bond z (S j) <= S c); [|lia].
      assert (HR : forall i, 1 <= i < llen x -> 0 < (if Nat.eqb i (S j) then S c else bond x i) /\ cut_rank (mshape x) (entry x) i (if Nat.eqb i (S j) then S c else bond x i)).
      { intros i Hi. destruct (Nat.eqb_spec i (S j)) as [->|_].
        - split; [lia|]. exact (cut_svd_rank x (S j) (nth j ss []) (S c) (CV j Hj) ltac:(lia) T).
        - split; [apply pos_bond; assumption|apply mpa_cut_rank; assumption]. }
      pose proof (proj2 (min_cuts qr Hq svd svdfunc Hs Ht Ho' x z None 0%R dir ov (fun i => if Nat.eqb i (S j) then S c else bond x i) Hx (cform_ok_weak x Hc) HT Hn Logic.I E HR) (S j) ltac:(lia)) as B. cbn beta in B; rewrite Nat.eqb_refl in B. exact B.
Qed.
Print Assumptions C82_singularvals.

(** The array 3 |00> with a bond of dimension 2: relerr=0 leaves rank 1, the value that
    vanishes is dropped. *)
Definition mr_m : nd CS := mkNd [2; 2] (cs [3; 0; 0; 0]%R).
Definition mr_svd : nd CS -> res (nd CS * list CS * nd CS) := look [(mr_m, (one2, cs [3; 0]%R, one2))].
Definition mr_x : ltens CS := mkLt [mkNd [1; 2; 2] (cs [3; 0; 0; 0]%R); mkNd [2; 2; 1] (cs [1; 0; 0; 1]%R)] 0 1.
Definition mr_y : ltens CS := mkLt [mkNd [1; 2; 1] (cs [3; 0]%R); mkNd [1; 2; 1] (cs [1; 0]%R)] 0 1.
Definition mr_z : ltens CS := mkLt [mkNd [1; 2; 1] (cs [1; 0]%R); mkNd [1; 2; 1] (cs [3; 0]%R)] 1 2.
Lemma mr_svd_sound : svd_sound mr_svd.
Proof.
  intros m n a Ha. unfold mr_svd.
  refine (look_sound (fun a m n (b : nd CS * list CS * nd CS) => let '(u, s, v) := b in svd_factors a m n u s v) _ m n a _ Ha).
  repeat first [apply Forall_nil | apply Forall_cons]; intros m' n' E; cbn [fst shp] in E; injection E as <- <-;
    (split; [reflexivity|]); (split; [reflexivity|]); (split; [reflexivity|]); (split; [reflexivity|]); (split; [reflexivity|]);
    (split; [|split; [|split]]; cbn [Nat.min]; four; cf).
Qed.
Lemma mr_svd_sorted a u s v : mr_svd a = Ok (u, s, v) -> Forall cnonneg s /\ descending (map Cre s).
Proof.
  unfold mr_svd. cbn [look]. destruct (nd_dec a mr_m); [|discriminate]. intros E. injection E as _ <- _.
  split; [repeat constructor; cbn; lra|cbn; repeat split; repeat constructor; lra].
Qed.
Lemma mr_x_ok : mpa_pos mr_x /\ cform_ok mr_x /\ canon_true mr_x.
Proof.
  split; [|split].
  - split; [split; [discriminate|apply bondsb_iff; reflexivity]|repeat constructor].
  - unfold cform_ok, cf_ok. cbn. lia.
  - split; cbn.
    + intros k H. lia.
    + intros [|[|k]] H1 H2; [lia| |cbn in H2; lia]. intros c d Hc Hd. cbn in Hc, Hd. four; cf.
Qed.
Lemma mr_val : mr_svd mr_m = Ok (one2, cs [3; 0]%R, one2). Proof. apply look_here. Qed.
Lemma mr_count : relerr_count 0 (cs [3; 0]%R) = 1.
Proof. apply (count_nz 0 [3; 0]%R 0); cbn; [lra|intros j Hj; lia|lia|lra]. Qed.
Example C82_ex qr : exists ov, compress_svd_re qr mr_svd (truncated_svd mr_svd) mr_x None (Some 0%R) DRight true = Ok (mr_z, ov) /\
  svd_sound mr_svd /\ (forall a u s v, mr_svd a = Ok (u, s, v) -> Forall cnonneg s /\ descending (map Cre s)) /\
  mpa_pos mr_x /\ cform_ok mr_x /\ canon_true mr_x /\ ranks mr_x = [2] /\ ranks mr_z = [1] /\
  mpa_pos mr_y /\ mshape mr_y = mshape mr_x /\ to_array mr_y = to_array mr_x /\ ranks mr_y = [1].
Proof.
  exists (toC 9). split.
  - unfold compress_svd_re. replace (Rleb 0 0) with true by (symmetry; apply Rleb_t; lra). replace (Rleb 0 1) with true by (symmetry; apply Rleb_t; lra). cbn [andb].
    pose proof mr_count as Hr. set (rk := relerr_count 0) in *. clearbody rk.
    assert (E1 : canonicalize qr mr_x CANone (CAInt 1) = Ok mr_x) by reflexivity.
    assert (E2 : csvd_r_factor mr_svd (truncated_svd mr_svd) 2 (Some rk) mr_x 0 = Ok (mkNd [1; 2; 2] (cs [3; 0; 0; 0]%R), one2, cs [3; 0]%R, one2, 1)).
    { unfold csvd_r_factor. nx (mkNd [1; 2; 2] (cs [3; 0; 0; 0]%R)). nx 2. nx mr_m. unfold svd_site. rewrite mr_val. cbn [bind]. rewrite Hr. reflexivity. }
    assert (E3 : csvd_r_step mr_svd (truncated_svd mr_svd) 2 (Some rk) mr_x 0 = Ok (mr_z, (cs [3; 0]%R, 1))) by (unfold csvd_r_step; rewrite E2; fin).
    unfold compress_svd. change (Nat.eqb (llen mr_x) 1) with false. unfold canonical_form. cbn iota. change (max_rank mr_x) with (Ok 2 : res nat). cbn [bind].
    rewrite E1. cbn [bind]. unfold compress_svd_r. change (pyrange 0 (Z.of_nat (llen mr_x) - 1) 1) with [0%Z]. cbn [Nat.ltb Nat.leb passert csvd_loop].
    rewrite E3. cbn [bind fst snd]. fin.
  - split; [exact mr_svd_sound|]. split; [exact mr_svd_sorted|]. destruct mr_x_ok as [H1 [H2 H3]]. split; [exact H1|]. split; [exact H2|]. split; [exact H3|].
    split; [reflexivity|]. split; [reflexivity|]. split; [|split; [reflexivity|split; [|reflexivity]]].
    + split; [split; [discriminate|apply bondsb_iff; reflexivity]|repeat constructor].
    + lazy -[Rplus Rmult Rminus Ropp IZR]; apply f_equal; repeat match goal with |- _ :: _ = _ :: _ => f_equal | |- (_, _) = (_, _) => f_equal end; ring.
Qed.

(** With rank= alone, values that vanish are kept: the rank of the result can be larger
    than necessary. *)
Theorem C82_rank_refuted : exists svd (x y z : ltens CS) r ov, svd_sound svd /\
  (forall a u s v, svd a = Ok (u, s, v) -> Forall cnonneg s /\ descending (map Cre s)) /\
  mpa_pos x /\ cform_ok x /\ canon_true x /\ llen x = 2 /\ 0 < r /\
  (forall qr : nd CS -> res (nd CS * nd CS), compress_svd qr svd (truncated_svd svd) x (Some r) None DRight true = Ok (z, ov)) /\
  mpa_pos y /\ mshape y = mshape x /\ to_array y = to_array x /\ ~ Forall2 le (ranks z) (ranks y).
Proof.
  exists mr_svd, mr_x, mr_y, (mkLt [mkNd [1; 2; 2] (cs [1; 0; 0; 1]%R); mkNd [2; 2; 1] (cs [3; 0; 0; 0]%R)] 1 2), 2, (toC 9).
  destruct (C82_ex (fun _ => Err LinAlgError)) as (_ & _ & S1 & S2 & H1 & H2 & H3 & _ & _ & Y1 & Y2 & Y3 & Y4).
  split; [exact S1|]. split; [exact S2|]. split; [exact H1|]. split; [exact H2|]. split; [exact H3|]. split; [reflexivity|]. split; [lia|].
  split; [|split; [exact Y1|split; [exact Y2|split; [exact Y3|]]]].
  - intros qr. assert (E1 : canonicalize qr mr_x CANone (CAInt 1) = Ok mr_x) by reflexivity.
    assert (E2 : csvd_r_factor mr_svd (truncated_svd mr_svd) 2 None mr_x 0 = Ok (mkNd [1; 2; 2] (cs [3; 0; 0; 0]%R), take_cols 2 one2, cs [3; 0]%R, take_rows 2 one2, 2)).
    { unfold csvd_r_factor. nx (mkNd [1; 2; 2] (cs [3; 0; 0; 0]%R)). nx 2. nx mr_m. unfold svd_site, truncated_svd. rewrite mr_val. reflexivity. }
    unfold compress_svd. change (Nat.eqb (llen mr_x) 1) with false. unfold canonical_form. cbn iota. cbn [bind].
    rewrite E1. cbn [bind]. unfold compress_svd_r. change (pyrange 0 (Z.of_nat (llen mr_x) - 1) 1) with [0%Z]. cbn [Nat.ltb Nat.leb passert csvd_loop].
    unfold csvd_r_step. rewrite E2. fin.
  - rewrite Y4. intros F. inversion F; subst. cbn in *. lia.
Qed.
Print Assumptions C82_rank_refuted.
