(** Arguments that [eig] and [eig_sum] reject. *)
From Verif Require Import CanonSpec Chain MpStruct MpArray Linalg PfBounds.
From Coq Require Import Lia.
Open Scope nat_scope.

Lemma ones_iff l : consecutive_ones l = true <-> exists l1 l2, l = l1 ++ 1 :: 1 :: l2.
Proof.
  induction l as [|a l IH]; [split; [discriminate|intros ([|? ?] & l2 & E); discriminate]|]. destruct l as [|b l].
  - split; [discriminate|]. intros ([|? [|? ?]] & l2 & E); discriminate.
  - change (consecutive_ones (a :: b :: l)) with ((Nat.eqb a 1 && Nat.eqb b 1) || consecutive_ones (b :: l)). rewrite orb_true_iff, andb_true_iff, !Nat.eqb_eq, IH. split.
    + intros [[-> ->]|(l1 & l2 & E)]; [exists [], l; reflexivity|exists (a :: l1), l2; rewrite E; reflexivity].
    + intros ([|c l1] & l2 & E); [injection E as -> -> _; left; auto|]. injection E as -> E. right. exists l1, l2. exact E.
Qed.

Section EigErr.
Context {K : StarRing}.
Variable qr : nd K -> res (nd K * nd K).
Variable svd : nd K -> res (nd K * list K * nd K).
Variable eigs : nd K -> list K -> res (nd K * nd K).
Variable rs : nat -> res (ltens K).

(** The errors of the start vector. *)
Definition start_err (sv : option (ltens K)) (rk : option nat) (e : pyerr) : Prop :=
  (sv = None /\ (rk = None \/ rk = Some 1) /\ e = ValueError) \/
  (exists x, sv = Some x /\ mpa_ok x /\ cform_ok x /\ (exists l1 l2, 1 :: ranks x ++ [1] = l1 ++ 1 :: 1 :: l2) /\ e = AssertionError).
Lemma start_err_ok sv rk e : start_err sv rk e -> start_vector rs sv rk = Err e.
Proof.
  intros [(-> & [->| ->] & ->)|(x & -> & H1 & H2 & H3 & ->)]; try reflexivity. unfold start_vector. rewrite (mpa_copy_id x H1 H2). cbn [bind]. apply ones_iff in H3. rewrite H3. reflexivity.
Qed.
Theorem eig_errors (mpo : ltens K) num v sv rk : (llen mpo <= v -> eig qr svd eigs rs mpo num v sv rk = Err AssertionError) /\
  (forall e, v < llen mpo -> start_err sv rk e -> eig qr svd eigs rs mpo num v sv rk = Err e).
Proof.
  split.
  - intros H. unfold eig. apply Nat.ltb_ge in H. rewrite H. reflexivity.
  - intros e H Hs. unfold eig. apply Nat.ltb_lt in H. rewrite H, (start_err_ok _ _ _ Hs). reflexivity.
Qed.
Theorem eig_sum_errors num v sv rk : eig_sum qr svd eigs rs [] num v sv rk = Err IndexError /\
  forall (m0 : ltens K) mpas, (Exists (fun m => llen m <> llen m0) mpas -> eig_sum qr svd eigs rs (m0 :: mpas) num v sv rk = Err AssertionError) /\
    (Forall (fun m => llen m = llen m0 /\ lts m <> []) (m0 :: mpas) ->
      (llen m0 <= v -> eig_sum qr svd eigs rs (m0 :: mpas) num v sv rk = Err AssertionError) /\ (forall e, v < llen m0 -> start_err sv rk e -> eig_sum qr svd eigs rs (m0 :: mpas) num v sv rk = Err e)).
Proof.
  split; [reflexivity|]. intros m0 mpas. assert (G : pyget (m0 :: mpas) 0 = Ok m0) by reflexivity. unfold eig_sum. rewrite G. cbn [bind]. split.
  - intros Ex. match goal with |- passert ?b _ = _ => destruct b eqn:F; [|reflexivity] end. exfalso. apply Exists_exists in Ex. destruct Ex as (m & Hm & H). rewrite forallb_forall in F. specialize (F m (or_intror Hm)). apply Nat.eqb_eq in F. contradiction.
  - intros A. match goal with |- (_ -> passert ?b _ = _) /\ _ => assert (b = true) as -> end; [apply forallb_forall; intros m Hm; apply Nat.eqb_eq; apply (proj1 (Forall_forall _ _) A m Hm)|]. cbn [passert].
    assert (N : exists nds, mapM (fun m : ltens K => pyget (ndims m) 0) (m0 :: mpas) = Ok nds).
    { clear - A. induction A as [|m l [_ Hm] _ [nds IH]]; [exists []; reflexivity|]. cbn [mapM]. assert (P : exists z, pyget (ndims m) 0 = Ok z) by (unfold ndims; destruct (lts m) as [|t ts]; [congruence|]; cbn [map]; eexists; reflexivity). destruct P as [z ->]. cbn [bind]. rewrite IH. eexists. reflexivity. }
    destruct N as [nds ->]. cbn [bind]. split.
    + intros H. apply Nat.ltb_ge in H. rewrite H. reflexivity.
    + intros e H Hs. apply Nat.ltb_lt in H. rewrite H, (start_err_ok _ _ _ Hs). reflexivity.
Qed.
(** Without any sweep there is no eigenvalue to return. *)
Lemma prepare_v (E V : Type) n v radd (ones : E) (x : ltens K) st : sweep_prepare qr E V n v radd ones x = Ok st -> st_v st = None.
Proof. unfold sweep_prepare. intros H. repeat match type of H with context[bind ?m _] => destruct m; cbn [bind] in H; [|discriminate] end. injection H as <-. reflexivity. Qed.
Theorem eig_no_sweep (mpo : ltens K) v sv rk : exists e, eig qr svd eigs rs mpo 0 v sv rk = Err e.
Proof.
  unfold eig. destruct (v <? llen mpo); [|eexists; reflexivity]. cbn [passert]. destruct (start_vector rs sv rk) as [x|e]; [|eexists; reflexivity]. cbn [bind].
  match goal with |- context[sweep_prepare ?a ?b ?c ?d ?e ?f ?g ?h] => destruct (sweep_prepare a b c d e f g h) as [st|] eqn:P; [|eexists; reflexivity] end. cbn [bind sweeps foldM seq]. unfold eig_result. rewrite (prepare_v _ _ _ _ _ _ _ _ P). eexists. reflexivity.
Qed.
Theorem eig_sum_no_sweep (mpas : list (ltens K)) v sv rk : exists e, eig_sum qr svd eigs rs mpas 0 v sv rk = Err e.
Proof.
  unfold eig_sum. destruct (pyget mpas 0) as [m0|]; [|eexists; reflexivity]. cbn [bind]. match goal with |- context[passert ?b _] => destruct b; [|eexists; reflexivity] end. cbn [passert]. destruct (mapM _ mpas) as [nds|]; [|eexists; reflexivity]. cbn [bind].
  destruct (v <? llen m0); [|eexists; reflexivity]. cbn [passert]. destruct (start_vector rs sv rk) as [x|e]; [|eexists; reflexivity]. cbn [bind].
  match goal with |- context[sweep_prepare ?a ?b ?c ?d ?e ?f ?g ?h] => destruct (sweep_prepare a b c d e f g h) as [st|] eqn:P; [|eexists; reflexivity] end. cbn [bind sweeps foldM seq]. unfold eig_result. rewrite (prepare_v _ _ _ _ _ _ _ _ P). eexists. reflexivity.
Qed.
End EigErr.
