(** The calls of ObjState against the models that give the state after a call that
    returns, and the state left by a call that raises. *)
From Verif Require Import ObjState PfErrors3 PfCompress PfHistory.

Section ObjState.
Context {K : StarRing}.
Add Ring Kr : (k_ring K).

(** Nothing written unless the call returns. *)
Definition commit (x : ltens K) (r : res (ltens K)) : ltens K * res unit :=
  match r with Ok z => (z, Ok tt) | Err e => (x, Err e) end.
Definition commit2 {A : Type} (x : ltens K) (r : res (ltens K * A)) : ltens K * res A :=
  match r with Ok p => (fst p, Ok (snd p)) | Err e => (x, Err e) end.
(** The outcome of a call without the state left by an exception. *)
Definition outcome {A : Type} (p : ltens K * res A) : res (ltens K * A) :=
  match snd p with Ok a => Ok (fst p, a) | Err e => Err e end.

Lemma update1_len (x z : ltens K) k t f : lt_update1 x k t f = Ok z -> llen z = llen x.
Proof.
  unfold lt_update1. destruct (pyidx (llen x) k) as [n|]; [|discriminate]. unfold llen.
  repeat match goal with |- context[if ?b then _ else _] => destruct b end; intros E; injection E as <-; cbn [lts]; apply set_nth_length.
Qed.
Lemma update_loop_total ts : forall pos flags (x : ltens K), Forall (fun p => 0 <= p < Z.of_nat (llen x))%Z pos ->
  exists z, lt_update_loop x ts pos flags = Ok z /\
    cfor (fun p => update1_call (snd (fst p)) (fst (fst p)) (snd p)) (combine (combine ts pos) flags) x = (z, Ok tt).
Proof.
  induction ts as [|t ts IH]; intros pos flags x H; [exists x; split; reflexivity|]. destruct pos as [|p pos]; [exists x; split; reflexivity|].
  destruct flags as [|f flags]; [exists x; split; reflexivity|]. inversion H as [|? ? Hp H']; subst. cbn [lt_update_loop combine cfor]. unfold cbind. cbn [fst snd].
  unfold update1_call at 1. destruct (lt_update1 x p t f) as [y|e] eqn:E.
  - cbn [bind]. apply IH. rewrite (update1_len _ _ _ _ _ E). exact H'.
  - exfalso. unfold lt_update1, pyidx in E. destruct (Z.leb_spec 0 p); [|lia]. destruct (Z.ltb_spec p (Z.of_nat (llen x))); [|lia].
    repeat match type of E with context[if ?b then _ else _] => destruct b end; discriminate.
Qed.

Lemma cbind_eval {A B : Type} (g : ltens K -> res A) (f : A -> call B) x :
  cbind (eval g) f x = match g x with Ok a => f a x | Err e => (x, Err e) end.
Proof. reflexivity. Qed.
Lemma cbind_assert {B : Type} b (f : unit -> call B) (x : ltens K) :
  cbind (cassert b) f x = if b then f tt x else (x, Err AssertionError).
Proof. destruct b; reflexivity. Qed.
Ltac step := rewrite cbind_eval; cbv beta;
  match goal with |- match ?r with Ok _ => _ | Err _ => _ end = _ => destruct r; cbv beta iota; cbn [bind commit commit2]; [|reflexivity] end.
Ltac sassert := rewrite cbind_assert; cbv beta;
  match goal with |- (if ?b then _ else _) = _ => destruct b; cbv beta iota; cbn [passert commit commit2]; [|reflexivity] end.

Theorem update_slice_call_eq (x : ltens K) s ts c : update_slice_call s ts c x = commit x (lt_update_slice x s ts c).
Proof.
  unfold update_slice_call, lt_update_slice.
  rewrite cbind_eval. cbv beta.
  assert (HS : s_step s = Some 0%Z \/ s_step s <> Some 0%Z) by (destruct (s_step s) as [z|]; [destruct (Z.eq_dec z 0); [left; congruence|right; congruence]|right; discriminate]).
  destruct HS as [HS|HS]; [rewrite (slice_step0 _ _ HS); reflexivity|].
  destruct (slice_selects s (llen x) HS) as (a & b & d & E & Hd & HP & _). rewrite E. cbv beta iota. cbn [bind].
  do 4 step. sassert. step. do 4 step. sassert.
  match goal with |- cfor _ (combine _ ?fl) _ = _ => destruct (update_loop_total ts (pyrange a b d) fl x) as (z & E1 & E2) end.
  - apply Forall_forall. intros p Hp. unfold pyrange in Hp. apply in_map_iff in Hp. destruct Hp as (k & <- & Hk). apply in_seq in Hk.
    destruct (HP k ltac:(lia)) as (q & Hq & Eq). lia.
  - rewrite E2, E1. reflexivity.
Qed.
Theorem update_int_call_eq (x : ltens K) i t f : update_int_call i t f x = commit x (lt_update_int x i t f).
Proof. unfold update_int_call, lt_update_int. step. sassert. do 2 step. sassert. do 2 step. sassert. reflexivity. Qed.

(** ** Loops *)
Lemma cfor_prefix {A : Type} (m : A -> call unit) (f : ltens K -> A -> res (ltens K)) : (forall s x, m s x = commit x (f x s)) ->
  forall l x y r, cfor m l x = (y, r) ->
    (r = Ok tt /\ foldM f l x = Ok y) \/ (exists e k, r = Err e /\ foldM f l x = Err e /\ k < length l /\ foldM f (firstn k l) x = Ok y).
Proof.
  intros Hm. induction l as [|s l IH]; intros x y r E; cbn [cfor] in E; [injection E as <- <-; left; split; reflexivity|].
  unfold cbind in E. rewrite Hm in E. unfold commit in E. destruct (f x s) as [x1|e] eqn:Ef.
  - destruct (IH _ _ _ E) as [[-> H]|(e & k & -> & H1 & H2 & H3)]; [left; split; [reflexivity|]; cbn [foldM]; rewrite Ef; exact H|].
    right. exists e, (S k). cbn [foldM firstn length]. rewrite Ef. cbn [bind]. repeat split; auto; lia.
  - injection E as <- <-. right. exists e, 0. cbn [foldM firstn length]. rewrite Ef. repeat split; auto; lia.
Qed.
Lemma cgen_prefix {A : Type} (m : A -> call (list K * nat)) (f : ltens K -> A -> res (ltens K * (list K * nat))) (lp : list A -> ltens K -> res (ltens K * list (list K * nat))) :
  (forall x, lp [] x = Ok (x, [])) -> (forall s l x, lp (s :: l) x = (do p <- f x s; do q <- lp l (fst p); Ok (fst q, snd p :: snd q))) ->
  (forall s x, m s x = commit2 x (f x s)) ->
  forall l x y r, cgen m l x = (y, r) ->
    (exists ys, r = Ok ys /\ lp l x = Ok (y, ys)) \/ (exists e k ys, r = Err e /\ lp l x = Err e /\ k < length l /\ lp (firstn k l) x = Ok (y, ys)).
Proof.
  intros L0 L1 Hm. induction l as [|s l IH]; intros x y r E; cbn [cgen] in E; [injection E as <- <-; left; exists []; split; [reflexivity|apply L0]|].
  unfold cbind in E. rewrite Hm in E. unfold commit2 in E. rewrite L1. destruct (f x s) as [[x1 b]|e] eqn:Ef; cbn [fst snd] in E.
  - destruct (cgen m l x1) as [y' r'] eqn:Eg. cbn [bind fst snd]. destruct (IH _ _ _ Eg) as [(ys & -> & H)|(e & k & ys & -> & H1 & H2 & H3)].
    + cbn in E. injection E as <- <-. left. eexists. split; [reflexivity|]. rewrite H. reflexivity.
    + injection E as <- <-. right. rewrite H1. exists e, (S k), (b :: ys). cbn [firstn length bind]. rewrite L1, Ef. cbn [bind fst]. rewrite H3. cbn [bind fst snd]. repeat split; auto; lia.
  - injection E as <- <-. right. exists e, 0, []. cbn [bind firstn length]. rewrite L0. repeat split; auto; lia.
Qed.

Section QR.
Variable qr : nd K -> res (nd K * nd K).

Lemma rcanon_call_eq s x : rcanon_call qr s x = commit x (rcanon_step qr x s).
Proof. unfold rcanon_call, rcanon_step. do 4 step. destruct p as [q r]. do 3 step. apply update_slice_call_eq. Qed.
Lemma lcanon_call_eq s x : lcanon_call qr s x = commit x (lcanon_step qr x s).
Proof. unfold lcanon_call, lcanon_step. do 4 step. destruct p as [q r]. do 3 step. apply update_slice_call_eq. Qed.

Definition oc (p : ltens K * res unit) : res (ltens K) := match snd p with Ok _ => Ok (fst p) | Err e => Err e end.
Lemma cfor_oc {A : Type} (m : A -> call unit) (f : ltens K -> A -> res (ltens K)) l x : (forall s x, m s x = commit x (f x s)) -> oc (cfor m l x) = foldM f l x.
Proof.
  intros Hm. destruct (cfor m l x) as [y r] eqn:E. destruct (cfor_prefix m f Hm l x y r E) as [[-> H]|(e & k & -> & H & _)]; rewrite H; reflexivity.
Qed.
Lemma rcanonicalize_call_eq to x : oc (rcanonicalize_call qr to x) = rcanonicalize qr x to.
Proof.
  unfold rcanonicalize_call, rcanonicalize. rewrite !cbind_eval, cbind_assert. destruct (_ && _)%bool; [|reflexivity]. apply cfor_oc. intros; apply rcanon_call_eq.
Qed.
Lemma lcanonicalize_call_eq to x : oc (lcanonicalize_call qr to x) = lcanonicalize qr x to.
Proof.
  unfold lcanonicalize_call, lcanonicalize. rewrite !cbind_eval, cbind_assert. destruct (_ && _)%bool; [|reflexivity]. apply cfor_oc. intros; apply lcanon_call_eq.
Qed.
Lemma oc_bind (m : call unit) (g : call unit) (f : ltens K -> res (ltens K)) (h : ltens K -> res (ltens K)) x :
  oc (m x) = f x -> (forall y, oc (g y) = h y) -> oc (cbind m (fun _ => g) x) = (do y <- f x; h y).
Proof. intros H1 H2. unfold cbind. destruct (m x) as [y [u|e]]; cbn in H1; rewrite <- H1; cbn [bind]; [apply H2|reflexivity]. Qed.
Theorem canonicalize_call_eq left right x : oc (canonicalize_call qr left right x) = canonicalize qr x left right.
Proof.
  unfold canonicalize_call, canonicalize. rewrite !cbind_eval. destruct (canonical_form x) as [cl cr].
  assert (E : forall tl tr, oc ((if negb ((0 <=? tl)%Z && (tl <=? Z.of_nat (llen x))%Z) then craise IndexError
      else if negb ((0 <=? tr)%Z && (tr <=? Z.of_nat (llen x))%Z) then craise IndexError
      else if negb (tl <? tr)%Z then craise ValueError
      else run _ <- (if (cl <? tl)%Z then rcanonicalize_call qr tl else creturn tt);
        if (tr <? cr)%Z then lcanonicalize_call qr tr else creturn tt) x) =
      if negb ((0 <=? tl)%Z && (tl <=? Z.of_nat (llen x))%Z) then Err IndexError
      else if negb ((0 <=? tr)%Z && (tr <=? Z.of_nat (llen x))%Z) then Err IndexError
      else if negb (tl <? tr)%Z then Err ValueError
      else do x1 <- (if (cl <? tl)%Z then rcanonicalize qr x tl else Ok x);
        if (tr <? cr)%Z then lcanonicalize qr x1 tr else Ok x1).
  { intros tl tr. destruct (negb ((0 <=? tl)%Z && _)); [reflexivity|]. destruct (negb ((0 <=? tr)%Z && _)); [reflexivity|]. destruct (negb (tl <? tr)%Z); [reflexivity|].
    apply (oc_bind _ _ (fun x => if (cl <? tl)%Z then rcanonicalize qr x tl else Ok x) (fun y => if (tr <? cr)%Z then lcanonicalize qr y tr else Ok y)).
    - destruct (cl <? tl)%Z; [apply rcanonicalize_call_eq|reflexivity].
    - intros y. destruct (tr <? cr)%Z; [apply lcanonicalize_call_eq|reflexivity]. }
  destruct left as [| |a], right as [| |b]; try apply E.
  destruct (cl <? _)%Z; [apply lcanonicalize_call_eq|apply rcanonicalize_call_eq].
Qed.

(** ** The state left by [canonicalize] *)
Hypothesis Hqr : qr_sound qr.
Definition kept (l r : nat) (x y : ltens K) : Prop := sim l r x y /\ (cform_wk x -> cform_wk y) /\ (cform_ok x -> cform_ok y).
Lemma kept_refl l r x : chain_ok (lts x) l r -> kept l r x x.
Proof. intros H. split; [apply sim_refl; exact H|auto]. Qed.
Lemma kept_trans l r x y z : kept l r x y -> kept l r y z -> kept l r x z.
Proof. intros (A & B & C) (A' & B' & C'). split; [eapply sim_trans; eassumption|auto]. Qed.
Lemma firstn_map_seq {A : Type} (f : nat -> A) n : forall k, k <= n -> firstn k (map f (seq 0 n)) = map f (seq 0 k).
Proof. intros k H. rewrite firstn_map. f_equal. replace n with (k + (n - k)) by lia. rewrite seq_app. rewrite firstn_app, seq_length. replace (k - k) with 0 by lia. rewrite firstn_all2 by (rewrite seq_length; lia). cbn [firstn]. apply app_nil_r. Qed.
Lemma cfor_prefix' {A : Type} (m : A -> call unit) (f : ltens K -> A -> res (ltens K)) : (forall s x, m s x = commit x (f x s)) ->
  forall l x y r, cfor m l x = (y, r) -> exists k, k <= length l /\ foldM f (firstn k l) x = Ok y.
Proof.
  intros Hm l x y r E. destruct (cfor_prefix m f Hm l x y r E) as [[_ H]|(e & k & _ & _ & Hk & H)].
  - exists (length l). rewrite firstn_all. auto.
  - exists k. split; [lia|exact H].
Qed.
Lemma rcanonicalize_left l r to x y o : chain_ok (lts x) l r -> (0 <= lcan x)%Z -> rcanonicalize_call qr to x = (y, o) -> kept l r x y.
Proof.
  intros HC H0 E. unfold rcanonicalize_call in E. rewrite !cbind_eval, cbind_assert in E. destruct (Z.leb_spec 0 to) as [T0|_]; [|injection E as <- _; apply kept_refl; exact HC].
  destruct (Z.ltb_spec to (Z.of_nat (llen x))) as [T1|_]; [|injection E as <- _; apply kept_refl; exact HC]. cbn [andb] in E.
  destruct (cfor_prefix' _ (rcanon_step qr) rcanon_call_eq _ _ _ _ E) as (k & Hk & F). destruct (Z.ltb_spec (lcan x) to) as [H|H].
  - rewrite pyrange_up in Hk, F by lia. rewrite map_length, seq_length in Hk. rewrite firstn_map_seq in F by exact Hk.
    destruct (outc_inv _ _ _ _ (rcanon_loop qr Hqr l r k x HC H0 ltac:(lia)) F) as (S & L & R). split; [exact S|]. rewrite (sim_len _ _ _ _ S) || idtac.
    pose proof (sim_len _ _ _ _ S) as Len. unfold cform_wk, cform_ok, cf_ok. rewrite L, R, Len. destruct (Nat.eqb_spec k 0); lia.
  - rewrite pyrange_empty in F by lia. rewrite firstn_nil in F. injection F as <-. apply kept_refl; exact HC.
Qed.
Lemma lcanonicalize_left l r to x y o : chain_ok (lts x) l r -> (rcan x <= Z.of_nat (llen x))%Z -> lcanonicalize_call qr to x = (y, o) -> kept l r x y.
Proof.
  intros HC H0 E. unfold lcanonicalize_call in E. rewrite !cbind_eval, cbind_assert in E. destruct (Z.ltb_spec 0 to) as [T0|_]; [|injection E as <- _; apply kept_refl; exact HC].
  destruct (Z.leb_spec to (Z.of_nat (llen x))) as [T1|_]; [|injection E as <- _; apply kept_refl; exact HC]. cbn [andb] in E.
  destruct (cfor_prefix' _ (lcanon_step qr) lcanon_call_eq _ _ _ _ E) as (k & Hk & F). destruct (Z.ltb_spec to (rcan x)) as [H|H].
  - rewrite pyrange_down in Hk, F by lia. rewrite map_length, seq_length in Hk. rewrite firstn_map_seq in F by exact Hk.
    destruct (outc_inv _ _ _ _ (lcanon_loop qr Hqr l r k x HC H0 ltac:(lia)) F) as (S & R & L). split; [exact S|].
    pose proof (sim_len _ _ _ _ S) as Len. unfold cform_wk, cform_ok, cf_ok. rewrite L, R, Len. destruct (Nat.eqb_spec k 0); lia.
  - rewrite pyrange_down_empty in F by lia. rewrite firstn_nil in F. injection F as <-. apply kept_refl; exact HC.
Qed.
Theorem canonicalize_left l r left right x y o : chain_ok (lts x) l r -> cform_wk x -> canonicalize_call qr left right x = (y, o) -> kept l r x y.
Proof.
  intros HC HW E. unfold canonicalize_call in E. rewrite !cbind_eval in E. destruct (canonical_form x) as [cl cr] eqn:EC. unfold canonical_form in EC. injection EC as <- <-.
  assert (G : forall tl tr, (if negb ((0 <=? tl)%Z && (tl <=? Z.of_nat (llen x))%Z) then craise IndexError
      else if negb ((0 <=? tr)%Z && (tr <=? Z.of_nat (llen x))%Z) then craise IndexError
      else if negb (tl <? tr)%Z then craise ValueError
      else run _ <- (if (lcan x <? tl)%Z then rcanonicalize_call qr tl else creturn tt);
        if (tr <? rcan x)%Z then lcanonicalize_call qr tr else creturn tt) x = (y, o) -> kept l r x y).
  { intros tl tr H. destruct (negb ((0 <=? tl)%Z && _)); [injection H as <- _; apply kept_refl; exact HC|]. destruct (negb ((0 <=? tr)%Z && _)); [injection H as <- _; apply kept_refl; exact HC|].
    destruct (negb (tl <? tr)%Z); [injection H as <- _; apply kept_refl; exact HC|]. unfold cbind in H.
    destruct ((if (lcan x <? tl)%Z then rcanonicalize_call qr tl else creturn tt) x) as [x1 o1] eqn:E1.
    assert (K1 : kept l r x x1).
    { destruct (lcan x <? tl)%Z; [eapply rcanonicalize_left; [exact HC|apply HW|exact E1]|injection E1 as <- _; apply kept_refl; exact HC]. }
    destruct o1 as [u|e]; [|injection H as <- _; exact K1]. destruct (tr <? rcan x)%Z; [|injection H as <- _; exact K1].
    eapply kept_trans; [exact K1|]. destruct K1 as (S & W & _). eapply lcanonicalize_left; [apply S|apply (W HW)|exact H]. }
  destruct left as [| |a], right as [| |b]; try (eapply G; exact E).
  destruct (lcan x <? _)%Z; [eapply lcanonicalize_left|eapply rcanonicalize_left]; try exact E; try exact HC; apply HW.
Qed.
Lemma canonicalize_call_targets left right x : lts x <> [] -> ~ (left = CANone /\ right = CANone) ->
  let n := Z.of_nat (llen x) in let tl := left_target n left in let tr := right_target n right in
  canonicalize_call qr left right x =
    (if negb ((0 <=? tl)%Z && (tl <=? n)%Z) then craise IndexError
      else if negb ((0 <=? tr)%Z && (tr <=? n)%Z) then craise IndexError
      else if negb (tl <? tr)%Z then craise ValueError
      else run _ <- (if (lcan x <? tl)%Z then rcanonicalize_call qr tl else creturn tt);
        if (tr <? rcan x)%Z then lcanonicalize_call qr tr else creturn tt) x.
Proof.
  intros Hne HD n tl tr. assert (Hn : (0 < n)%Z) by (unfold n, llen; destruct (lts x); [congruence|cbn; lia]).
  assert (TL : tl = (let tl0 := match left with CANone => 0%Z | CAFull => (n - 1)%Z | CAInt z => z end in if (tl0 <? 0)%Z then (tl0 + n)%Z else tl0)).
  { unfold tl, left_target. destruct left as [| |z]; [reflexivity| |reflexivity]. cbv zeta. destruct (Z.ltb_spec (n - 1) 0); lia. }
  assert (TR : tr = (let tr0 := match right with CANone => n | CAFull => 1%Z | CAInt z => z end in if (tr0 <? 0)%Z then (tr0 + n)%Z else tr0)).
  { unfold tr, right_target. destruct right as [| |z]; [|reflexivity|reflexivity]. cbv zeta. destruct (Z.ltb_spec n 0); lia. }
  rewrite TL, TR. unfold canonicalize_call. rewrite !cbind_eval. unfold canonical_form. fold n.
  destruct left as [| |z], right as [| |w]; try reflexivity. exfalso. auto.
Qed.
(** The arguments are checked before anything is written. *)
Theorem canonicalize_args left right x y e : mpa_pos x -> cform_wk x -> canonicalize_call qr left right x = (y, Err e) -> e <> LinAlgError -> y = x.
Proof.
  intros Hx HW E He. pose proof (canonicalize_call_eq left right x) as EQ. rewrite E in EQ. unfold oc in EQ. cbn [fst snd] in EQ.
  assert (D : (left = CANone /\ right = CANone) \/ ~ (left = CANone /\ right = CANone)).
  { destruct left, right; try (left; split; reflexivity); right; intros [? ?]; discriminate. }
  destruct D as [[-> ->]|D].
  { destruct (canonicalize_default_spec qr Hqr 1 1 x (pos_chain _ Hx) HW) as [(z & Ez & _)|[Ez _]]; rewrite Ez in EQ; congruence. }
  pose proof (canonicalize_spec qr Hqr 1 1 x left right (pos_chain _ Hx) HW D) as HS. cbv zeta in HS.
  rewrite (canonicalize_call_targets left right x (proj1 (proj1 Hx)) D) in E. cbv zeta in E.
  set (n := Z.of_nat (llen x)) in *. set (L := left_target n left) in *. set (R := right_target n right) in *.
  destruct (Z.leb_spec 0 L) as [B1|]; [|injection E as <- _; reflexivity]. destruct (Z.leb_spec L n); [|injection E as <- _; reflexivity].
  destruct (Z.leb_spec 0 R); [|injection E as <- _; reflexivity]. destruct (Z.leb_spec R n) as [B3|]; [|injection E as <- _; reflexivity].
  destruct (Z.ltb_spec L R) as [B2|]; [|injection E as <- _; reflexivity].
  destruct (HS B1 B2 B3) as [(z & Ez & _)|[Ez _]]; rewrite Ez in EQ; congruence.
Qed.
End QR.
End ObjState.
