(** A run of the variational compression with three sites that moves away from the
    original 63 |000> + 60 |011> + 80 |101>. *)
From Coq Require Import Reals Lra.
From Verif Require Export ExVarBest.
From Verif Require Import PfEigVal2 Examples.
Local Open Scope nat_scope.

(** Factorisations that know a few matrices. *)
Definition nd_dec (a b : nd CS) : {a = b} + {a <> b}.
Proof.
  destruct a as [s d], b as [s' d']. destruct (list_eq_dec Nat.eq_dec s s') as [->|N]; [|right; intros E; injection E as E1 E2; contradiction].
  destruct (list_eq_dec cplx_dec d d') as [->|N]; [left; reflexivity|right; intros E; injection E as E2; contradiction].
Defined.
Fixpoint look {B} (l : list (nd CS * B)) (a : nd CS) : res B :=
  match l with [] => Err LinAlgError | (c, b) :: l => if nd_dec a c then Ok b else look l a end.
Lemma look_sound {B} (P : nd CS -> nat -> nat -> B -> Prop) (l : list (nd CS * B)) m n a :
  Forall (fun p => forall m n, shp (fst p) = [m; n] -> P (fst p) m n (snd p)) l -> is_mat a m n ->
  match look l a with Ok b => P a m n b | Err e => e = LinAlgError end.
Proof.
  intros F [E W]. induction F as [|[c b] l H F IH]; [reflexivity|]. cbn [look]. destruct (nd_dec a c) as [->|N]; [|exact IH]. apply H. exact E.
Qed.
Lemma look_here {B} c (b : B) l : look ((c, b) :: l) c = Ok b.
Proof. cbn [look]. destruct (nd_dec c c) as [_|N]; [reflexivity|contradiction]. Qed.
Lemma look_next {B} c (b : B) l a : shp a <> shp c \/ dat a <> dat c -> look ((c, b) :: l) a = look l a.
Proof. intros N. cbn [look]. destruct (nd_dec a c) as [->|_]; [exfalso; destruct N as [N|N]; apply N; reflexivity|reflexivity]. Qed.

Definition vt_T : nd CS := mkNd [2; 4] (cs [63; 0; 0; 60; 0; 80; 0; 0]%R).
Definition vt_M1 : nd CS := mkNd [4; 2] (cs [63; 0; 0; 60; 0; 80; 0; 0]%R).
Definition vt_Q1 : nd CS := mkNd [4; 2] (cs [1; 0; 0; 3 / 5; 0; 4 / 5; 0; 0]%R).
Definition vt_R1 : nd CS := mkNd [2; 2] (cs [63; 0; 0; 100]%R).
Definition vt_M2 : nd CS := mkNd [4; 2] (cs [63; 0; 0; 80; 0; 0; 60; 0]%R).
Definition vt_Q2 : nd CS := mkNd [4; 2] (cs [21 / 29; 0; 0; 1; 0; 0; 20 / 29; 0]%R).
Definition vt_R2 : nd CS := mkNd [2; 2] (cs [87; 0; 0; 80]%R).
Definition vt_R3 : nd CS := mkNd [2; 2] (cs [63; 0; 0; 60]%R).
Definition vt_e : nd CS := mkNd [2; 1] (cs [1; 0]%R).
Definition vt_1 : nd CS := mkNd [1; 1] (cs [1]%R).
Definition qr_vt : nd CS -> res (nd CS * nd CS) :=
  look [(vt_T, (one2, vt_T)); (vt_M1, (vt_Q1, vt_R1)); (vt_M2, (vt_Q2, vt_R2)); (vt_R1, (one2, vt_R1)); (vt_e, (vt_e, vt_1))].
Definition svd_vt : nd CS -> res (nd CS * list CS * nd CS) :=
  look [(vt_R2, (one2, cs [87; 80]%R, one2)); (vt_R3, (one2, cs [63; 60]%R, one2))].
Ltac four := repeat match goal with |- forall _, _ => intro | H : (?c < 4)%nat |- _ => destruct c as [|[|[|[|c]]]]; [clear H|clear H|clear H|clear H|exfalso; lia] | H : (?c < 2)%nat |- _ => destruct c as [|[|c]]; [clear H|clear H|exfalso; lia] | H : (?c < 1)%nat |- _ => destruct c as [|c]; [clear H|exfalso; lia] end.
Ltac cf := apply cplx_eq; lazy -[Rplus Rmult Rminus Ropp IZR Rinv Rdiv]; lra.
Lemma qr_vt_sound : qr_sound qr_vt.
Proof.
  intros m n a Ha. unfold qr_vt.
  refine (look_sound (fun a m n (b : nd CS * nd CS) => let (q, r) := b in qr_factors a m n q r) _ m n a _ Ha).
  repeat first [apply Forall_nil | apply Forall_cons]; intros m' n' E; cbn [fst shp] in E; injection E as <- <-;
    (split; [reflexivity|]); (split; [reflexivity|]); (split; [reflexivity|]); (split; [reflexivity|]); (split; cbn [Nat.min]; four; cf).
Qed.
Lemma svd_vt_sound : svd_sound svd_vt.
Proof.
  intros m n a Ha. unfold svd_vt.
  refine (look_sound (fun a m n (b : nd CS * list CS * nd CS) => let '(u, s, v) := b in svd_factors a m n u s v) _ m n a _ Ha).
  repeat first [apply Forall_nil | apply Forall_cons]; intros m' n' E; cbn [fst shp] in E; injection E as <- <-;
    (split; [reflexivity|]); (split; [reflexivity|]); (split; [reflexivity|]); (split; [reflexivity|]); (split; [reflexivity|]);
    (split; [|split; [|split]]; cbn [Nat.min]; four; cf).
Qed.
Lemma svd_vt_sorted m n a u s v : is_mat a m n -> svd_vt a = Ok (u, s, v) -> Forall cnonneg s /\ descending (map Cre s).
Proof.
  intros Ha E. unfold svd_vt in E.
  assert (H : match look [(vt_R2, (one2, cs [87; 80]%R, one2)); (vt_R3, (one2, cs [63; 60]%R, one2))] a with
    Ok b => Forall cnonneg (snd (fst b)) /\ descending (map Cre (snd (fst b))) | Err e => e = LinAlgError end).
  { refine (look_sound (fun a m n (b : nd CS * list CS * nd CS) => Forall cnonneg (snd (fst b)) /\ descending (map Cre (snd (fst b)))) _ m n a _ Ha).
    repeat first [apply Forall_nil | apply Forall_cons]; intros; cbn [fst snd]; (split; [repeat constructor; cbn; lra|cbn; repeat split; repeat constructor; lra]). }
  rewrite E in H. exact H.
Qed.
Lemma cs_ne (l l' : list R) : l <> l' -> cs l <> cs l'.
Proof.
  intros N E. apply N. clear N. revert l' E. induction l as [|a l IH]; intros [|b l'] E; try discriminate; [reflexivity|].
  cbn in E. injection E as E1 E2. rewrite E1. f_equal. apply IH. exact E2.
Qed.
Ltac nxt := rewrite look_next by (first [left; discriminate | right; apply cs_ne; intros NE; injection NE; intros; lra]).
Lemma qr_vt_T : qr_vt vt_T = Ok (one2, vt_T). Proof. apply look_here. Qed.
Lemma qr_vt_M1 : qr_vt vt_M1 = Ok (vt_Q1, vt_R1). Proof. unfold qr_vt. nxt. apply look_here. Qed.
Lemma qr_vt_M2 : qr_vt vt_M2 = Ok (vt_Q2, vt_R2). Proof. unfold qr_vt. nxt. nxt. apply look_here. Qed.
Lemma qr_vt_R1 : qr_vt vt_R1 = Ok (one2, vt_R1). Proof. unfold qr_vt. do 3 nxt. apply look_here. Qed.
Lemma qr_vt_e : qr_vt vt_e = Ok (vt_e, vt_1). Proof. unfold qr_vt. do 4 nxt. apply look_here. Qed.
Lemma svd_vt_R2 : svd_vt vt_R2 = Ok (one2, cs [87; 80]%R, one2). Proof. apply look_here. Qed.
Lemma svd_vt_R3 : svd_vt vt_R3 = Ok (one2, cs [63; 60]%R, one2). Proof. unfold svd_vt. nxt. apply look_here. Qed.

Definition vt_x : ltens CS := mkLt [mkNd [1; 2; 2] (cs [1; 0; 0; 1]%R); mkNd [2; 2; 2] (cs [63; 0; 0; 60; 0; 80; 0; 0]%R); mkNd [2; 2; 1] (cs [1; 0; 0; 1]%R)] 1 2.
Definition vt_s : ltens CS := mkLt [mkNd [1; 2; 1] (cs [0; 80]%R); mkNd [1; 2; 1] (cs [1; 0]%R); mkNd [1; 2; 1] (cs [0; 1]%R)] 0 1.
Definition vt_c : ltens CS := mkLt [mkNd [1; 2; 1] (cs [1; 0]%R); mkNd [1; 2; 1] (cs [1; 0]%R); mkNd [1; 2; 1] (cs [63; 0]%R)] 0 3.
Definition vt_d : ltens CS := mkLt (lts vt_c) 2 3.

Ltac fin := lazy -[Rplus Rmult Rminus Ropp IZR Rinv Rdiv]; repeat f_equal; lra.
Ltac nx v := match goal with |- bind ?e _ = _ => let E := fresh in assert (E : e = Ok v) by fin; rewrite E; clear E; cbn beta iota delta [bind] end.
Ltac nq H := match goal with |- bind (?f ?a) _ = _ => match type of H with f ?M = _ => let E := fresh in assert (E : a = M) by fin; try rewrite E; clear E; rewrite H; cbn beta iota delta [bind] end end.
Notation t122 l := (mkNd [1; 2; 2] (cs l)) (only parsing).
Notation t222 l := (mkNd [2; 2; 2] (cs l)) (only parsing).
Notation t221 l := (mkNd [2; 2; 1] (cs l)) (only parsing).
Definition vt_z : ltens CS := mkLt [t122 [1; 0; 0; 1]%R; t222 [1; 0; 0; 3 / 5; 0; 4 / 5; 0; 0]%R; t221 [63; 0; 0; 100]%R] 2 3.
Definition vt_w : ltens CS := mkLt [t122 [1; 0; 0; 1]%R; t222 [63; 0; 0; 60; 0; 80; 0; 0]%R; t221 [1; 0; 0; 1]%R] 1 2.
Definition vt_y : ltens CS := mkLt [t122 [87; 0; 0; 80]%R; t222 [21 / 29; 0; 0; 20 / 29; 0; 1; 0; 0]%R; t221 [1; 0; 0; 1]%R] 0 1.
Lemma ef_one (qr : nd CS -> res (nd CS * nd CS)) tens n ns : Nat.eqb (ndim tens) (n + 2) = false -> Nat.ltb (ndim tens) (n + 2) = false ->
  extract_factors qr tens (n :: ns) =
  do m <- reshape_py tens [Z.of_nat (size (firstn (S n) (shp tens))); -1]%Z;
  do qr' <- qr m;
  let '(q, r) := qr' in
  do q' <- reshape_py q (zshape (firstn (S n) (shp tens) ++ [ldim r]));
  do r' <- reshape_py r (zshape (ldim r :: skipn (S n) (shp tens)));
  do rest <- extract_factors qr r' ns;
  Ok (q' :: rest).
Proof. intros H1 H2. cbn [extract_factors]. rewrite H1, H2. reflexivity. Qed.
Lemma vt_from : from_array qr_vt (mkNd [1; 2; 2; 2; 1] (cs [63; 0; 0; 60; 0; 80; 0; 0]%R)) (NDInt 1) true = Ok vt_z.
Proof.
  unfold from_array, extract_factors_int. cbn [ndim shp List.length repeat].
  assert (E : extract_factors qr_vt (mkNd [1; 2; 2; 2; 1] (cs [63; 0; 0; 60; 0; 80; 0; 0]%R)) [1; 1; 1; 1; 1] = Ok (lts vt_z)).
  { assert (E1 : extract_factors qr_vt (mkNd [2; 2; 2; 1] (cs [63; 0; 0; 60; 0; 80; 0; 0]%R)) [1; 1; 1; 1] = Ok (tl (lts vt_z))).
    { rewrite ef_one by reflexivity. nx vt_M1. nq qr_vt_M1. nx (t222 [1; 0; 0; 3 / 5; 0; 4 / 5; 0; 0]%R). nx (t221 [63; 0; 0; 100]%R). reflexivity. }
    rewrite ef_one by reflexivity. nx vt_T. nq qr_vt_T. nx (t122 [1; 0; 0; 1]%R). nx (mkNd [2; 2; 2; 1] (cs [63; 0; 0; 60; 0; 80; 0; 0]%R)).
    rewrite E1. reflexivity. }
  rewrite E. reflexivity.
Qed.
Lemma vt_can : canonicalize qr_vt vt_z CANone (CAInt 1) = Ok vt_y.
Proof.
  change (canonicalize qr_vt vt_z CANone (CAInt 1)) with (foldM (lcanon_step qr_vt) [2; 1]%Z vt_z). cbn [foldM].
  assert (E1 : lcanon_step qr_vt vt_z 2 = Ok vt_w).
  { unfold lcanon_step. nx (t221 [63; 0; 0; 100]%R). nx 2. nx vt_R1. nq qr_vt_R1. fin. }
  assert (E2 : lcanon_step qr_vt vt_w 1 = Ok vt_y).
  { unfold lcanon_step. nx (t222 [63; 0; 0; 60; 0; 80; 0; 0]%R). nx 2. nx vt_T. nq qr_vt_M2. fin. }
  rewrite E1. cbn [bind]. rewrite E2. reflexivity.
Qed.
Definition vt_v : ltens CS := mkLt [mkNd [1; 2; 1] (cs [1; 0]%R); mkNd [1; 2; 2] (cs [63; 0; 0; 60]%R); t221 [1; 0; 0; 1]%R] 1 2.
Definition vt_u : ltens CS := mkLt [mkNd [1; 2; 1] (cs [1; 0]%R); mkNd [1; 2; 1] (cs [1; 0]%R); mkNd [1; 2; 1] (cs [63; 0]%R)] 2 3.
Lemma vt_split : split_t qr_vt svd_vt 3 1 (mkNd [1; 2; 2; 2; 1] (cs [63; 0; 0; 60; 0; 80; 0; 0]%R)) = Ok (lts vt_c).
Proof.
  unfold split_t. cbn [Nat.eqb]. rewrite vt_from. cbn [bind]. unfold compress_svd. change (Nat.eqb (llen _) 1) with false. unfold canonical_form. cbn iota. cbn [bind].
  change (lcan _ <? _)%Z with false. cbn iota. rewrite vt_can. cbn [bind].
  assert (E1 : csvd_r_step svd_vt (truncated_svd svd_vt) 1 None vt_y 0 = Ok (vt_v, (cs [87]%R, 1))).
  { unfold csvd_r_step, csvd_r_factor.
    assert (F : svd_site svd_vt (truncated_svd svd_vt) 1 None vt_R2 = Ok (take_cols 1 one2, cs [87]%R, take_rows 1 one2, 1)).
    { unfold svd_site, truncated_svd. rewrite svd_vt_R2. reflexivity. }
    assert (G : (do t <- pyget (lts vt_y) 0; do d <- shape_last t; do m <- reshape_py t [-1; Z.of_nat d]%Z; do f <- svd_site svd_vt (truncated_svd svd_vt) 1 None m; let '(u, s, v, k) := f in Ok (t, u, s, v, k)) = Ok (t122 [87; 0; 0; 80]%R, take_cols 1 one2, cs [87]%R, take_rows 1 one2, 1)).
    { nx (t122 [87; 0; 0; 80]%R). nx 2. nx vt_R2. rewrite F. reflexivity. }
    rewrite G. fin. }
  assert (E2 : csvd_r_step svd_vt (truncated_svd svd_vt) 1 None vt_v 1 = Ok (vt_u, (cs [63]%R, 1))).
  { unfold csvd_r_step, csvd_r_factor.
    assert (F : svd_site svd_vt (truncated_svd svd_vt) 1 None vt_R3 = Ok (take_cols 1 one2, cs [63]%R, take_rows 1 one2, 1)).
    { unfold svd_site, truncated_svd. rewrite svd_vt_R3. reflexivity. }
    assert (G : (do t <- pyget (lts vt_v) 1; do d <- shape_last t; do m <- reshape_py t [-1; Z.of_nat d]%Z; do f <- svd_site svd_vt (truncated_svd svd_vt) 1 None m; let '(u, s, v, k) := f in Ok (t, u, s, v, k)) = Ok (t122 [63; 0; 0; 60]%R, take_cols 1 one2, cs [63]%R, take_rows 1 one2, 1)).
    { nx (t122 [63; 0; 0; 60]%R). nx 2. nx vt_R3. rewrite F. reflexivity. }
    rewrite G. fin. }
  unfold compress_svd_r. change (pyrange 0 (Z.of_nat (llen vt_y) - 1) 1) with [0%Z; 1%Z]. cbn [Nat.ltb Nat.leb passert csvd_loop].
  rewrite E1. cbn [bind fst snd]. rewrite E2. reflexivity.
Qed.
Lemma vt_locl : g_local unit 3 (proj_locl qr_vt svd_vt [2; 2; 2] (state vt_x) 3 1) (vt_s, None) 0 = Ok (vt_c, Some tt).
Proof.
  unfold g_local, proj_locl. cbn [fst]. match goal with |- context [split_t _ _ _ _ ?t] => assert (E : t = mkNd [1; 2; 2; 2; 1] (cs [63; 0; 0; 60; 0; 80; 0; 0]%R)) by fin end.
  rewrite E. rewrite vt_split. cbn [bind snd fst]. fin.
Qed.
Lemma vt_norm : norm_sq qr_vt vt_c = Ok (toC 3969, vt_d).
Proof.
  unfold norm_sq.
  assert (E : canonicalize qr_vt vt_c CANone CANone = Ok vt_d).
  { change (canonicalize qr_vt vt_c CANone CANone) with (foldM (rcanon_step qr_vt) [0; 1]%Z vt_c). cbn [foldM].
    assert (E1 : rcanon_step qr_vt vt_c 0 = Ok (mkLt (lts vt_c) 1 3)).
    { unfold rcanon_step. nx (mkNd [1; 2; 1] (cs [1; 0]%R)). nx 1. nx vt_e. nq qr_vt_e. fin. }
    assert (E2 : rcanon_step qr_vt (mkLt (lts vt_c) 1 3) 1 = Ok vt_d).
    { unfold rcanon_step. nx (mkNd [1; 2; 1] (cs [1; 0]%R)). nx 1. nx vt_e. nq qr_vt_e. fin. }
    rewrite E1. cbn [bind]. rewrite E2. reflexivity. }
  rewrite E. fin.
Qed.
Lemma vt_x_ok : mpa_pos vt_x /\ cform_ok vt_x /\ canon_true vt_x.
Proof.
  split; [|split].
  - split; [split; [discriminate|apply bondsb_iff; reflexivity]|repeat constructor].
  - unfold cform_ok, cf_ok. cbn. lia.
  - split; cbn.
    + intros [|k] H H0; [clear H H0|lia]. intros c d Hc Hd. cbn in Hc, Hd. four; cf.
    + intros [|[|[|k]]] H1 H2; [lia|lia| |cbn in H2; lia]. intros c d Hc Hd. cbn in Hc, Hd. four; cf.
Qed.
Lemma vt_s_ok : mpa_pos vt_s /\ cform_ok vt_s /\ canon_true vt_s.
Proof.
  split; [|split].
  - split; [split; [discriminate|apply bondsb_iff; reflexivity]|repeat constructor].
  - unfold cform_ok, cf_ok. cbn. lia.
  - split; cbn.
    + intros k H. lia.
    + intros [|[|[|k]]] H1 H2; [lia| | |cbn in H2; lia]; intros c d Hc Hd; cbn in Hc, Hd; four; cf.
Qed.
Lemma vt_x_inv : mps_inv [2; 2; 2] vt_x.
Proof. split; [apply pos_chain; apply vt_x_ok|]. split; [reflexivity|]. unfold cform_wk. cbn. lia. Qed.
Lemma vt_s_inv : mps_inv [2; 2; 2] vt_s.
Proof. split; [apply pos_chain; apply vt_s_ok|]. split; [reflexivity|]. unfold cform_wk. cbn. lia. Qed.
Lemma vt_adapt : adapt_to qr_vt svd_vt vt_s vt_x 1 3 = Ok (toC 3969, vt_d).
Proof.
  rewrite (adapt_dense qr_vt svd_vt qr_vt_sound svd_vt_sound [2; 2; 2] vt_s vt_x 1 3 ltac:(cbn; lia) ltac:(cbn; lia) (proj1 vt_x_inv) (proj1 (proj2 vt_x_inv)) vt_s_inv).
  unfold dense_adapt. change (canonicalize qr_vt vt_s CANone (CAInt 1)) with (Ok vt_s : res (ltens CS)). cbn [bind].
  change (max_rank vt_s) with (Ok 1 : res nat). cbn [bind List.length]. unfold g_sweeps. cbn [seq foldM]. unfold g_one. cbn [Nat.ltb Nat.leb Nat.sub Nat.add seq foldM rev app bind].
  unfold g_ltr. cbn [Nat.ltb Nat.leb bind fst snd]. rewrite vt_locl. cbn [bind fst snd]. exact vt_norm.
Qed.
Lemma vt_run rc : compression_var qr_vt svd_vt rc vt_x 1 (Some vt_s) None 3 = Ok (vt_d, toC 3969).
Proof.
  unfold compression_var. change (Nat.eqb (llen vt_x) 1) with false. cbn iota. change (max_rank vt_s) with (Ok 1 : res nat). change (max_rank vt_x) with (Ok 2 : res nat). cbn [bind].
  cbn [Nat.ltb Nat.leb].
  assert (E1 : (do c <- mpa_copy vt_s; passert (forallb (fun p => list_eqb (fst p) (snd p)) (combine (mshape vt_x) (mshape c))) (Ok c)) = Ok vt_s) by reflexivity.
  rewrite E1. cbn [bind]. assert (E2 : mravel vt_s = Ok vt_s) by fin. rewrite E2. assert (E3 : mravel vt_x = Ok vt_x) by fin. rewrite E3. cbn [bind].
  rewrite vt_adapt. cbn [bind snd fst]. assert (E4 : mreshape vt_d (RList (map zshape (mshape vt_x))) = Ok vt_d) by fin. rewrite E4. reflexivity.
Qed.
Lemma vt_dist : Cre (dist2_of vt_x vt_s) = 7569%R /\ Cre (dist2_of vt_x vt_d) = 10000%R.
Proof. split; lazy -[Rplus Rmult Rminus Ropp IZR]; ring. Qed.
