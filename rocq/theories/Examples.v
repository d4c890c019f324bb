(** Small concrete MPArrays over the Gaussian integers, used beside the property
    theorems to show that their hypotheses are met by non-trivial arguments. *)
From Verif Require Export PropAux.

Definition mk (sh : list nat) (l : list GZ) : nd GZ := mkNd sh l.
(** Two-site MPS of ranks (2), physical dimensions 2 and 3. *)
Definition ex_a : ltens GZ :=
  mkLt [mk [1;2;2] [g 1 0; g 0 1; g 2 1; g (-1) 3];
        mk [2;3;1] [g 1 1; g 0 0; g 3 0; g (-2) 1; g 1 0; g 0 (-1)]] 0 2.
(** Same shape, rank 3. *)
Definition ex_b : ltens GZ :=
  mkLt [mk [1;2;3] [g 1 0; g 2 0; g 0 1; g 0 0; g 1 (-1); g 5 0];
        mk [3;3;1] [g 1 0; g 2 0; g 3 0; g 0 1; g 0 2; g 0 3; g (-1) 0; g 1 0; g 4 4]] 0 2.
(** Three-site MPO with ranks (2, 2), two legs of dimension 2 per site. *)
Definition ex_o : ltens GZ :=
  mkLt [mk [1;2;2;2] [g 1 0; g 0 1; g 2 1; g 0 0; g 0 0; g 1 1; g 3 0; g 1 (-1)];
        mk [2;2;2;2] [g 1 0; g 0 0; g 0 1; g 1 0; g 2 0; g 0 0; g 1 1; g 0 0; g 0 (-1); g 1 0; g 0 0; g 0 0; g 4 0; g 1 0; g 0 0; g 1 2];
        mk [2;2;2;1] [g 1 0; g 0 1; g 0 0; g 2 0; g 1 1; g 0 0; g 1 0; g 3 (-1)]] 0 3.
(** Three-site MPS, dimensions 2. *)
Definition ex_s : ltens GZ :=
  mkLt [mk [1;2;2] [g 1 0; g 0 1; g 1 1; g 2 0];
        mk [2;2;2] [g 1 0; g 0 0; g 0 2; g 1 0; g 0 0; g 3 0; g 1 0; g 0 (-1)];
        mk [2;2;1] [g 1 0; g 2 0; g 0 1; g 1 1]] 0 3.
(** A chain whose first site is left-isometric and last site right-isometric. *)
Definition ex_c : ltens GZ :=
  mkLt [mk [1;2;2] [g 0 1; g 0 0; g 0 0; g 1 0];
        mk [2;2;2] [g 1 0; g 0 0; g 0 2; g 1 0; g 0 0; g 3 0; g 1 0; g 0 (-1)];
        mk [2;2;1] [g 0 0; g (-1) 0; g 0 1; g 0 0]] 1 2.

Definition exs : list (ltens GZ) := [ex_a; ex_b; ex_o; ex_s; ex_c].
Lemma exs_ok : Forall mpa_ok exs.
Proof. repeat constructor; cbn; lia || discriminate. Qed.
Lemma ex_ok x : In x exs -> mpa_ok x.
Proof. apply Forall_forall. exact exs_ok. Qed.
Lemma ex_cform x : In x exs -> cform_ok x.
Proof. intros H. repeat (destruct H as [<-|H]; [apply cform_okb_ok; reflexivity|]). destruct H. Qed.

(** Value of an entry of a result. *)
Definition entry_of (r : res (ltens GZ)) (is : list (list nat)) : option GZ :=
  match r with Ok z => Some (entry z is) | Err _ => None end.
Definition ranks_of (r : res (ltens GZ)) : option (list nat) :=
  match r with Ok z => Some (ranks z) | Err _ => None end.

Definition from_ok {A : Type} (r : res A) (d : A) : A := match r with Ok z => z | Err _ => d end.
Definition no_mpa : ltens GZ := mkLt [] 0 0.

(** Equality by evaluation of both sides. *)
Ltac vmc := match goal with |- @eq ?A ?a ?b => vm_cast_no_check (@eq_refl A b) end.
Ltac vms := repeat split; vmc.

(** Executable isometry checks. *)
Definition gz_eqb (x y : GZ) : bool := (fst x =? fst y)%Z && (snd x =? snd y)%Z.
Lemma gz_eqb_eq x y : gz_eqb x y = true -> x = y.
Proof. destruct x, y. unfold gz_eqb. rewrite andb_true_iff, !Z.eqb_eq. cbn. intros [-> ->]; reflexivity. Qed.
Definition iso_tab (n : nat) (f : nat -> nat -> GZ) : bool :=
  forallb (fun b => forallb (fun b' => gz_eqb (f b b') (delta b b')) (seq 0 n)) (seq 0 n).
Lemma iso_tab_ok n f : iso_tab n f = true -> forall b b', b < n -> b' < n -> f b b' = delta b b'.
Proof.
  unfold iso_tab. rewrite forallb_forall. intros H b b' Hb Hb'. specialize (H b ltac:(apply in_seq; lia)).
  rewrite forallb_forall in H. apply gz_eqb_eq. apply H. apply in_seq; lia.
Qed.
Definition left_isob (t : nd GZ) : bool :=
  iso_tab (rdim t) (fun b b' => bigsum (ldim t) (fun a => msum (pdims t) (fun i => kconj (ent t a i b) * ent t a i b'))%K).
Definition right_isob (t : nd GZ) : bool :=
  iso_tab (ldim t) (fun a a' => bigsum (rdim t) (fun b => msum (pdims t) (fun i => ent t a i b * kconj (ent t a' i b)))%K).
Definition canon_trueb (x : ltens GZ) : bool :=
  forallb (fun k => negb (Z.of_nat k <? lcan x)%Z || left_isob (nth k (lts x) dummy)) (seq 0 (llen x)) &&
  forallb (fun k => negb (rcan x <=? Z.of_nat k)%Z || right_isob (nth k (lts x) dummy)) (seq 0 (llen x)).
Lemma canon_trueb_ok x : canon_trueb x = true -> canon_true x.
Proof.
  unfold canon_trueb. rewrite andb_true_iff, !forallb_forall. intros [H1 H2]. split; intros k Hk Hl.
  - specialize (H1 k ltac:(apply in_seq; lia)). apply orb_true_iff in H1. rewrite negb_true_iff, Z.ltb_ge in H1.
    destruct H1 as [H1|H1]; [lia|]. exact (iso_tab_ok _ _ H1).
  - specialize (H2 k ltac:(apply in_seq; lia)). apply orb_true_iff in H2. rewrite negb_true_iff, Z.leb_gt in H2.
    destruct H2 as [H2|H2]; [lia|]. exact (iso_tab_ok _ _ H2).
Qed.
Lemma ex_canon x : In x exs -> canon_true x.
Proof. intros H. repeat (destruct H as [<-|H]; [apply canon_trueb_ok; vm_compute; reflexivity|]). destruct H. Qed.
