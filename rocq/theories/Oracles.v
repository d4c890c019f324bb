(** Factorisations over the Gaussian integers for the examples: they succeed on
    simple matrices and raise LinAlgError otherwise.  Every returned pair or triple
    has been checked, hence the soundness conditions of [CanonSpec] hold. *)
From Verif Require Export Examples PfHistory.

Definition allb (n : nat) (p : nat -> bool) : bool := forallb p (seq 0 n).
Lemma allb_ok n p : allb n p = true -> forall k, k < n -> p k = true.
Proof. unfold allb. rewrite forallb_forall. intros H k Hk. apply H. apply in_seq. lia. Qed.
Definition shp_is (a : nd GZ) (m n : nat) : bool := match shp a with [p; q] => Nat.eqb p m && Nat.eqb q n | _ => false end.
Lemma shp_is_ok a m n : shp_is a m n = true -> shp a = [m; n].
Proof.
  unfold shp_is. destruct (shp a) as [|p [|q [|]]]; try discriminate. rewrite andb_true_iff, !Nat.eqb_eq. intros [-> ->]. reflexivity.
Qed.

Definition qr_check (a : nd GZ) (m n : nat) (q r : nd GZ) : bool :=
  let k := Nat.min m n in
  shp_is q m k && ndwfb q && shp_is r k n && ndwfb r &&
  allb m (fun i => allb n (fun j => gz_eqb (get a [i; j]) (bigsum k (fun c => get q [i; c] * get r [c; j])%K))) &&
  allb k (fun c => allb k (fun d => gz_eqb (bigsum m (fun i => kconj (get q [i; c]) * get q [i; d])%K) (delta c d))).
Lemma qr_check_ok a m n q r : qr_check a m n q r = true -> qr_factors a m n q r.
Proof.
  unfold qr_check. rewrite !andb_true_iff. intros [[[[[H1 H2] H3] H4] H5] H6].
  split; [apply shp_is_ok; exact H1|]. split; [apply ndwfb_iff; exact H2|]. split; [apply shp_is_ok; exact H3|]. split; [apply ndwfb_iff; exact H4|].
  split; [intros i j Hi Hj; apply gz_eqb_eq; exact (allb_ok _ _ (allb_ok _ _ H5 i Hi) j Hj)|].
  intros c d Hc Hd. apply gz_eqb_eq. exact (allb_ok _ _ (allb_ok _ _ H6 c Hc) d Hd).
Qed.
(** [I A] for wide matrices; the non-zero rows for tall ones. *)
Definition qr_try (a : nd GZ) (m n : nat) : nd GZ * nd GZ :=
  if Nat.leb m n then (eye m, a)
  else
    let nz := filter (fun i => negb (allb n (fun j => gz_eqb (get a [i; j]) k0))) (seq 0 m) in
    let ze := filter (fun i => allb n (fun j => gz_eqb (get a [i; j]) k0)) (seq 0 m) in
    let sel := firstn n (nz ++ ze) in
    (tab [m; n] (fun i => delta (nth 0 i 0) (nth (nth 1 i 0) sel 0)),
     tab [n; n] (fun i => get a [nth (nth 0 i 0) sel 0; nth 1 i 0])).
Definition qr_gz (a : nd GZ) : res (nd GZ * nd GZ) :=
  match shp a with
  | [m; n] => let p := qr_try a m n in if qr_check a m n (fst p) (snd p) then Ok p else Err LinAlgError
  | _ => Err LinAlgError
  end.
Lemma qr_gz_sound : qr_sound qr_gz.
Proof.
  intros m n a [Es _]. unfold qr_gz. rewrite Es. cbv zeta. destruct (qr_check a m n _ _) eqn:E; [|reflexivity].
  destruct (qr_try a m n) as [q r]. apply qr_check_ok. exact E.
Qed.

Definition svd_check (a : nd GZ) (m n : nat) (u : nd GZ) (s : list GZ) (v : nd GZ) : bool :=
  let k := Nat.min m n in
  shp_is u m m && ndwfb u && Nat.eqb (List.length s) k && shp_is v n n && ndwfb v &&
  allb m (fun i => allb n (fun j => gz_eqb (get a [i; j]) (bigsum k (fun c => get u [i; c] * nth c s k0 * get v [c; j])%K))) &&
  allb m (fun c => allb m (fun d => gz_eqb (bigsum m (fun i => kconj (get u [i; c]) * get u [i; d])%K) (delta c d))) &&
  allb n (fun c => allb n (fun d => gz_eqb (bigsum n (fun j => get v [c; j] * kconj (get v [d; j]))%K) (delta c d))) &&
  allb k (fun c => gz_eqb (kconj (nth c s k0)) (nth c s k0)).
Lemma svd_check_ok a m n u s v : svd_check a m n u s v = true -> svd_factors a m n u s v.
Proof.
  unfold svd_check. rewrite !andb_true_iff. intros [[[[[[[[H1 H2] H3] H4] H5] H6] H7] H8] H9].
  split; [apply shp_is_ok; exact H1|]. split; [apply ndwfb_iff; exact H2|]. split; [apply Nat.eqb_eq; exact H3|].
  split; [apply shp_is_ok; exact H4|]. split; [apply ndwfb_iff; exact H5|].
  split; [intros i j Hi Hj; apply gz_eqb_eq; exact (allb_ok _ _ (allb_ok _ _ H6 i Hi) j Hj)|].
  split; [intros i j Hi Hj; apply gz_eqb_eq; exact (allb_ok _ _ (allb_ok _ _ H7 i Hi) j Hj)|].
  split; [intros i j Hi Hj; apply gz_eqb_eq; exact (allb_ok _ _ (allb_ok _ _ H8 i Hi) j Hj)|].
  intros c Hc. apply gz_eqb_eq. exact (allb_ok _ _ H9 c Hc).
Qed.
(** At most one non-zero entry per row and column, each a positive integer times
    a unit; sorted by size. *)
Definition mag (x : GZ) : Z := (Z.abs (fst x) + Z.abs (snd x))%Z.
Fixpoint ins (x : nat * nat * GZ) (l : list (nat * nat * GZ)) : list (nat * nat * GZ) :=
  match l with
  | [] => [x]
  | y :: l' => if (mag (snd x) <? mag (snd y))%Z then y :: ins x l' else x :: l
  end.
Definition svd_try (a : nd GZ) (m n : nat) : nd GZ * list GZ * nd GZ :=
  let es := filter (fun e => negb (gz_eqb (snd e) k0))
              (flat_map (fun i => map (fun j => (i, j, get a [i; j])) (seq 0 n)) (seq 0 m)) in
  let es := fold_right ins [] es in
  let rows := map (fun e => fst (fst e)) es in
  let cols := map (fun e => snd (fst e)) es in
  let rows := rows ++ filter (fun i => negb (existsb (Nat.eqb i) rows)) (seq 0 m) in
  let cols := cols ++ filter (fun i => negb (existsb (Nat.eqb i) cols)) (seq 0 n) in
  let unit c := match nth_error es c with Some e => g (Z.sgn (fst (snd e))) (Z.sgn (snd (snd e))) | None => k1 end in
  (tab [m; m] (fun i => if Nat.eqb (nth 0 i 0) (nth (nth 1 i 0) rows 0) then unit (nth 1 i 0) else k0),
   map (fun c => match nth_error es c with Some e => gi (mag (snd e)) | None => k0 end) (seq 0 (Nat.min m n)),
   tab [n; n] (fun i => if Nat.eqb (nth 1 i 0) (nth (nth 0 i 0) cols 0) then k1 else k0)).
Definition svd_gz (a : nd GZ) : res (nd GZ * list GZ * nd GZ) :=
  match shp a with
  | [m; n] => let p := svd_try a m n in if svd_check a m n (fst (fst p)) (snd (fst p)) (snd p) then Ok p else Err LinAlgError
  | _ => Err LinAlgError
  end.
Lemma svd_gz_sound : svd_sound svd_gz.
Proof.
  intros m n a [Es _]. unfold svd_gz. rewrite Es. cbv zeta. destruct (svd_check a m n _ _ _) eqn:E; [|reflexivity].
  destruct (svd_try a m n) as [[u s] v]. apply svd_check_ok. exact E.
Qed.
Definition tsvd_gz : nd GZ -> nat -> res (nd GZ * list GZ * nd GZ) := truncated_svd svd_gz.
Lemma tsvd_gz_sound : tsvd_sound tsvd_gz.
Proof. apply truncated_svd_sound. exact svd_gz_sound. Qed.

(** 3 |000> + 2 i |111>, as a rank-two chain without recorded form. *)
Definition ex_ghz : ltens GZ :=
  mkLt [mk [1;2;2] [g 1 0; g 0 0; g 0 0; g 0 1];
        mk [2;2;2] [g 3 0; g 0 0; g 0 0; g 0 0; g 0 0; g 0 0; g 0 0; g 2 0];
        mk [2;2;1] [g 1 0; g 0 0; g 0 0; g 1 0]] 0 3.

Lemma left_isob_ok (t : nd GZ) : left_isob t = true -> left_iso t.
Proof. intros H. exact (iso_tab_ok _ _ H). Qed.
Lemma right_isob_ok (t : nd GZ) : right_isob t = true -> right_iso t.
Proof. intros H. exact (iso_tab_ok _ _ H). Qed.
