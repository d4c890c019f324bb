(** A run of [eig] over the complex numbers: two sites, the projector onto [|00>]. *)
From Coq Require Import Reals Lra.
From Verif Require Export PfEigVal2 ExRelErr.
From Verif Require Import Examples.
Local Open Scope nat_scope.

(** QR of a 2x2 matrix with the unit matrix. *)
Definition qr_one (a : nd CS) : res (nd CS * nd CS) :=
  if list_eq_dec Nat.eq_dec (shp a) [2; 2] then Ok (one2, a) else Err LinAlgError.
Lemma qr_one_sound : qr_sound qr_one.
Proof.
  intros m n a [E W]. unfold qr_one. destruct (list_eq_dec Nat.eq_dec (shp a) [2; 2]) as [E2|]; [|reflexivity]. rewrite E in E2. injection E2 as -> ->.
  split; [reflexivity|]. split; [reflexivity|]. split; [exact E|]. split; [apply W|]. cbn [Nat.min]. destruct W as [W _]. unfold ndwf in W. destruct a as [sa da]. cbn [shp dat] in *. subst sa.
  destruct da as [|[a1 b1] [|[a2 b2] [|[a3 b3] [|[a4 b4] [|]]]]]; try discriminate W. split.
  - two; cc.
  - two; cc.
Qed.
(** An eigensolver that knows one matrix and its largest eigenvalue. *)
Definition p4 : nd CS := mkNd [4; 4] (cs [1;0;0;0; 0;0;0;0; 0;0;0;0; 0;0;0;0]%R).
Definition eigs_p4 (op : nd CS) (v0 : list CS) : res (nd CS * nd CS) :=
  if list_eq_dec Nat.eq_dec (shp op) [4; 4] then
    if list_eq_dec cplx_dec (dat op) (dat p4) then Ok (mkNd [1] (cs [1]%R), mkNd [4; 1] (cs [1;0;0;0]%R)) else Err LinAlgError
  else Err LinAlgError.
Lemma eigs_p4_inv op v0 val vec : eigs_p4 op v0 = Ok (val, vec) -> op = p4 /\ val = mkNd [1] (cs [1]%R) /\ vec = mkNd [4; 1] (cs [1;0;0;0]%R).
Proof.
  unfold eigs_p4. destruct (list_eq_dec Nat.eq_dec (shp op) [4; 4]) as [E1|]; [|discriminate].
  destruct (list_eq_dec cplx_dec (dat op) _) as [E2|]; [|discriminate]. intros E. injection E as <- <-.
  split; [|auto]. destruct op as [sa da]. cbn [shp dat] in E1, E2. subst. reflexivity.
Qed.
Lemma eigs_p4_val v0 : eigs_p4 p4 v0 = Ok (mkNd [1] (cs [1]%R), mkNd [4; 1] (cs [1;0;0;0]%R)).
Proof.
  unfold eigs_p4. destruct (list_eq_dec Nat.eq_dec (shp p4) [4; 4]) as [_|N]; [|exfalso; apply N; reflexivity].
  destruct (list_eq_dec cplx_dec (dat p4) _) as [_|N]; [reflexivity|exfalso; apply N; reflexivity].
Qed.
Lemma eigs_p4_wf : eigs_wf eigs_p4.
Proof. intros op v0 val vec E. apply eigs_p4_inv in E. destruct E as (_ & _ & ->). reflexivity. Qed.
Lemma eigs_p4_pairs h : eigs_pairs h eigs_p4.
Proof.
  intros m op v0 val vec S _ E i Hi. apply eigs_p4_inv in E. destruct E as (-> & -> & ->). injection S as <-.
  destruct i as [|[|[|[|i]]]]; [| | | |lia]; cc.
Qed.
Lemma eigs_p4_unit h : eigs_unit h eigs_p4.
Proof. intros m op v0 val vec S _ E. apply eigs_p4_inv in E. destruct E as (-> & -> & ->). injection S as <-. cc. Qed.
Lemma eigs_p4_best h : eigs_best h (better LA) eigs_p4.
Proof.
  intros m op v0 val vec S _ E c. apply eigs_p4_inv in E. destruct E as (-> & -> & ->). injection S as <-.
  unfold better, quad, sqn. cbn [bigsum]. destruct (c 0) as [a0 b0], (c 1) as [a1 b1], (c 2) as [a2 b2], (c 3) as [a3 b3].
  lazy -[Rplus Rmult Rminus Ropp IZR Rle]. nra.
Qed.
(** [|0><0| x |0><0|] and the start vector [|00> + |11>]. *)
Definition p_op : ltens CS := mkLt [mkNd [1;2;2;1] (cs [1;0;0;0]%R); mkNd [1;2;2;1] (cs [1;0;0;0]%R)] 0 2.
Definition p_x : ltens CS := mkLt [mkNd [1; 2; 2] (cs [1; 0; 0; 1]%R); mkNd [2; 2; 1] (cs [1; 0; 0; 1]%R)] 0 1.
Lemma p_op_is : is_op p_op [2;2].
Proof. split; [|split; reflexivity]. split; [discriminate|apply bondsb_iff; reflexivity]. Qed.
Lemma p_x_ok : mps_inv [2;2] p_x /\ cform_ok p_x /\ canon_true p_x.
Proof.
  split; [|split].
  - split; [split; [discriminate|split; [apply bondsb_iff; reflexivity|repeat constructor]]|]. split; [reflexivity|]. unfold cform_wk. cbn. lia.
  - unfold cform_ok, cf_ok. cbn. lia.
  - split; cbn.
    + intros k H. lia.
    + intros [|[|k]] H1 H2; [lia| |cbn in H2; lia]. intros c d Hc Hd. cbn in Hc, Hd. two; cc.
Qed.
Lemma p_herm : herm_op [2;2] (mpo_mat p_op).
Proof.
  intros is js Hi Hj. inversion Hi as [|a b la lb H1 H2]; subst. inversion H2 as [|a' b' la' lb' H3 H4]; subst. inversion H4; subst.
  inversion Hj as [|c d lc ld G1 G2]; subst. inversion G2 as [|c' d' lc' ld' G3 G4]; subst. inversion G4; subst. clear Hi Hj H2 H4 G2 G4. two; cc.
Qed.
Ltac eqr := lazy -[Rplus Rmult Rminus Ropp IZR]; repeat f_equal; ring.
Definition pM : list nat -> list nat -> CS := fun is js => amp (lts p_op) (pairs is js) 0 0.
Definition p_e : nd CS := mkNd [1; 2; 2] (cs [1; 0; 0; 0]%R).
Definition p_1 : ltens CS := mkLt [p_e; mkNd [2; 2; 1] (cs [1; 0; 0; 1]%R)] 0 1.
Definition p_2 : ltens CS := mkLt [mkNd [1; 2; 2] (cs [1; 0; 0; 1]%R); mkNd [2; 2; 1] (cs [1; 0; 0; 0]%R)] 1 2.
Definition locl svd := g_local CS 1 (dense_locl qr_one svd eigs_p4 [2;2] pM 1).
Lemma p_step svd (x y : ltens CS) o pos : dense_op [2;2] pM 1 (lts x) pos = p4 ->
  (do p <- (do t0 <- pyget (ins pos 1 (lts x)) 0; do lt <- reshape_py (mkNd [4] (cs [1;0;0;0]%R)) (zshape (shp t0)); Ok [lt]);
   lt_update_slice x (mkSlice (Some (Z.of_nat pos)) (Some (Z.of_nat (pos + 1))) None) p (COne None)) = Ok y ->
  List.length (ins pos 1 (lts x)) = 1 -> locl svd (x, o) pos = Ok (y, Some (toC 1)).
Proof.
  intros D E L. unfold locl, g_local, dense_locl. cbn [fst]. rewrite D. destruct (ins pos 1 (lts x)) as [|t [|]]; try discriminate.
  unfold eig_minimize2. cbn [max_left map fold_left bind pyget tl foldM]. change (pyget [t] 0) with (Ok t) in *. cbn [bind foldM tl] in *. rewrite eigs_p4_val. cbn [bind].
  change (ndim (mkNd [4; 1] (cs [1; 0; 0; 0]%R))) with 2. cbn [bind shp dat list_eqb Nat.eqb andb nth praise_unless]. cbn [List.length Nat.eqb].
  change (list_eqb [1] [1] && true) with true. cbn [praise_unless bind].
  destruct (reshape_py _ _) as [lt|]; [|discriminate]. cbn [bind snd fst] in *. rewrite E. reflexivity.
Qed.
Lemma p_s1 svd : locl svd (p_x, None) 0 = Ok (p_1, Some (toC 1)).
Proof. apply p_step; [eqr|reflexivity|reflexivity]. Qed.
Lemma p_c1 : canonicalize qr_one p_1 (CAInt 1) CANone = Ok p_2.
Proof. eqr. Qed.
Lemma p_s2 svd o : locl svd (p_2, o) 1 = Ok (p_2, Some (toC 1)).
Proof. apply p_step; [eqr|reflexivity|reflexivity]. Qed.
Lemma p_c2 : canonicalize qr_one p_2 CANone (CAInt 1) = Ok p_1.
Proof. eqr. Qed.
Lemma p_s3 svd o : locl svd (p_1, o) 0 = Ok (p_1, Some (toC 1)).
Proof. apply p_step; [eqr|reflexivity|reflexivity]. Qed.
Lemma p_run rs : eig qr_one svd_d32 eigs_p4 rs p_op 1 1 (Some p_x) None = Ok (toC 1, p_1).
Proof.
  rewrite (eig_dense qr_one svd_d32 eigs_p4 qr_one_sound svd_d32_sound eigs_p4_wf rs p_op 1 1 (Some p_x) None [2;2] (proj1 p_op_is) (proj2 p_op_is) (le_n 1) (proj1 p_x_ok)).
  change (start_vector rs (Some p_x) None) with (Ok p_x). change (passert (Nat.ltb 1 (List.length [2;2])) ?a) with a. cbn [bind]. fold pM. unfold dense_eig.
  change (canonicalize qr_one p_x CANone (CAInt 1)) with (Ok p_x : res (ltens CS)). cbn [bind List.length]. unfold g_sweeps. cbn [seq foldM]. unfold g_one. cbn [Nat.ltb Nat.leb Nat.sub Nat.add seq foldM rev app bind].
  unfold g_ltr, g_rtl. cbn [Nat.ltb Nat.leb bind fst snd]. fold (locl svd_d32).
  rewrite p_s1. cbn [bind fst snd]. change (Z.of_nat 1) with 1%Z. rewrite p_c1. cbn [bind]. rewrite p_s2. cbn [bind fst snd]. change (Z.of_nat (0 + 1)) with 1%Z. rewrite p_c2. cbn [bind]. rewrite p_s3. reflexivity.
Qed.
Lemma p_norm : norm2_of p_x = toC 2 /\ sandwich p_op p_x None = Ok (toC 1).
Proof. split; [cc|eqr]. Qed.
