(** Which calls can change which objects. *)
From Verif Require Export Heap PfLocality PfHistory.
Open Scope nat_scope.

Section Heap.
Context {K : StarRing}.
Notation store := (store K).
Notation call := (call K).
(** Every object has a cell. *)
Definition heap_wf (s : store) : Prop := forall o a, nth_error (objs s) o = Some a -> a < length (cells s).
(** Distinct objects have distinct cells. *)
Definition separate (s : store) : Prop := heap_wf s /\ NoDup (objs s).
Definition live (s : store) (o : nat) : Prop := o < length (objs s).
(** Calls that return an object with a cell of its argument *)
Definition shares (s : store) (c : call) : bool :=
  match c with
  | CPos _ | CWrap _ => true
  | CGroup _ n => Nat.eqb n 1
  | CSplit x pos => match val s x with Some a => (pos <? 0)%Z || (Z.of_nat (llen a) <=? pos)%Z | None => false end
  | _ => false
  end.
(** The object changed by a call *)
Definition target (c : call) : option nat := match c with CIn _ x | CVar x _ _ _ _ => Some x | _ => None end.

Lemma val_live s o : heap_wf s -> live s o -> exists x, val s o = Some x.
Proof.
  intros W L. unfold val, cell_of. destruct (nth_error (objs s) o) as [a|] eqn:E; [|apply nth_error_None in E; unfold live in L; lia].
  destruct (nth_error (cells s) a) as [x|] eqn:E2; [exists x; reflexivity|]. apply nth_error_None in E2. specialize (W _ _ E). lia.
Qed.
Lemma look_live s o x : look s o = Ok x -> val s o = Some x /\ live s o.
Proof.
  unfold look. intros E. destruct (val s o) as [y|] eqn:V; [|discriminate]. injection E as <-. split; [reflexivity|]. unfold val, cell_of in V. unfold live. apply nth_error_Some. destruct (nth_error (objs s) o); congruence.
Qed.

(** ** New objects *)
Lemma alloc_spec s x s' o : alloc s x = (s', o) -> heap_wf s -> heap_wf s' /\ o = length (objs s) /\ length (objs s') = S (length (objs s)) /\ val s' o = Some x /\
  (forall y, live s y -> val s' y = val s y) /\ (NoDup (objs s) -> NoDup (objs s')).
Proof.
  intros E W. unfold alloc in E. injection E as <- <-. cbn [cells objs]. split; [|split; [reflexivity|split; [rewrite app_length; cbn; lia|split; [|split]]]].
  - intros o a. cbn [cells objs]. rewrite app_length. cbn [length]. intros H. assert (Lo : o < length (objs s ++ [length (cells s)])) by (apply nth_error_Some; congruence). rewrite app_length in Lo. cbn in Lo.
    destruct (Nat.eq_dec o (length (objs s))) as [->|N]; [rewrite nth_error_app2, Nat.sub_diag in H by lia; injection H as <-; lia|rewrite nth_error_app1 in H by lia; specialize (W _ _ H); lia].
  - unfold val, cell_of. cbn [cells objs]. rewrite nth_error_app2, Nat.sub_diag by lia. cbn [nth_error]. rewrite nth_error_app2, Nat.sub_diag by lia. reflexivity.
  - intros y L. unfold val, cell_of. cbn [cells objs]. rewrite (nth_error_app1 (objs s)) by exact L. destruct (nth_error (objs s) y) as [a|] eqn:E; [|reflexivity]. apply nth_error_app1. apply (W _ _ E).
  - intros ND. apply (Permutation_NoDup (l := length (cells s) :: objs s)); [apply Permutation_cons_append|]. constructor; [|exact ND]. intros I. apply In_nth_error in I. destruct I as [o E]. specialize (W _ _ E). lia.
Qed.
Lemma alloc_list_spec l : forall s s' os, alloc_list s l = (s', os) -> heap_wf s -> heap_wf s' /\ os = seq (length (objs s)) (length l) /\ length (objs s') = length (objs s) + length l /\
  (forall k x, nth_error l k = Some x -> val s' (length (objs s) + k) = Some x) /\
  (forall y, live s y -> val s' y = val s y) /\ (NoDup (objs s) -> NoDup (objs s')).
Proof.
  induction l as [|x l IH]; intros s s' os E W; cbn [alloc_list] in E.
  - injection E as <- <-. cbn [length seq]. split; [exact W|]. split; [reflexivity|]. split; [lia|]. split; [intros [|k] x; discriminate|auto].
  - destruct (alloc s x) as [s1 o] eqn:E1. destruct (alloc_list s1 l) as [s2 os2] eqn:E2. injection E as <- <-. destruct (alloc_spec _ _ _ _ E1 W) as (W1 & -> & L1 & V1 & F1 & N1). destruct (IH _ _ _ E2 W1) as (W2 & -> & L2 & V2 & F2 & N2).
    split; [exact W2|]. cbn [length seq]. rewrite L1. split; [reflexivity|]. split; [lia|]. split; [|split].
    + intros [|k] y H; cbn [nth_error] in H.
      * injection H as ->. rewrite Nat.add_0_r, F2 by (unfold live; lia). exact V1.
      * rewrite Nat.add_succ_r, <- Nat.add_succ_l, <- L1. apply V2. exact H.
    + intros y Hy. rewrite F2 by (unfold live in *; lia). apply F1. exact Hy.
    + auto.
Qed.
Definition fresh_from (s : store) (s' : store) (rs : list nat) : Prop :=
  heap_wf s' /\ rs = seq (length (objs s)) (length rs) /\ length (objs s') = length (objs s) + length rs /\
  (forall y, live s y -> val s' y = val s y) /\ (NoDup (objs s) -> NoDup (objs s')).
Lemma alloc_list_fresh l s s' os : alloc_list s l = (s', os) -> heap_wf s -> fresh_from s s' os.
Proof.
  intros E W. destruct (alloc_list_spec l s s' os E W) as (A & B & C & _ & D & F). assert (L : length os = length l) by (rewrite B; apply seq_length). unfold fresh_from. rewrite L. auto.
Qed.
(** ** Changed objects *)
Lemma write_spec s o x : heap_wf s -> live s o -> heap_wf (write s o x) /\ objs (write s o x) = objs s /\ val (write s o x) o = Some x /\
  (forall y, cell_of s y <> cell_of s o -> val (write s o x) y = val s y) /\ (forall y, cell_of s y = cell_of s o -> val (write s o x) y = Some x).
Proof.
  intros W L. unfold write, cell_of. destruct (nth_error (objs s) o) as [a|] eqn:E; [|apply nth_error_None in E; unfold live in L; lia]. cbn [cells objs].
  assert (La : a < length (cells s)) by (apply (W _ _ E)). split; [|split; [reflexivity|split; [|split]]].
  - intros o' a' H. cbn [cells objs] in *. rewrite set_nth_length. apply (W _ _ H).
  - unfold val, cell_of. cbn [cells objs]. rewrite E. apply nth_error_set_nth_eq. exact La.
  - intros y N. unfold val, cell_of. cbn [cells objs]. destruct (nth_error (objs s) y) as [b|] eqn:Eb; [|reflexivity]. apply nth_error_set_nth. congruence.
  - intros y N. unfold val, cell_of. cbn [cells objs]. rewrite N. apply nth_error_set_nth_eq. exact La.
Qed.
Lemma nodup_cells s : NoDup (objs s) -> forall x y, live s x -> x <> y -> cell_of s y <> cell_of s x.
Proof.
  intros ND x y L N E. unfold cell_of in E. apply N. apply (proj1 (NoDup_nth_error (objs s)) ND x y); [exact L|congruence].
Qed.
Lemma rebind_spec s o x : heap_wf s -> live s o -> heap_wf (rebind s o x) /\ length (objs (rebind s o x)) = length (objs s) /\ val (rebind s o x) o = Some x /\
  (forall y, y <> o -> val (rebind s o x) y = val s y) /\ (NoDup (objs s) -> NoDup (objs (rebind s o x))).
Proof.
  intros W L. unfold rebind. cbn [cells objs]. assert (G : forall o', nth_error (set_nth o (length (cells s)) (objs s)) o' = if Nat.eqb o' o then Some (length (cells s)) else nth_error (objs s) o').
  { intros o'. destruct (Nat.eqb_spec o' o) as [->|N]; [apply nth_error_set_nth_eq; exact L|apply nth_error_set_nth; exact N]. }
  split; [|split; [apply set_nth_length|split; [|split]]].
  - intros o' a. cbn [cells objs]. rewrite G, app_length. cbn [length]. destruct (Nat.eqb o' o); [intros E; injection E as <-; lia|intros E; specialize (W _ _ E); lia].
  - unfold val, cell_of. cbn [cells objs]. rewrite G, Nat.eqb_refl. rewrite nth_error_app2, Nat.sub_diag by lia. reflexivity.
  - intros y N. unfold val, cell_of. cbn [cells objs]. rewrite G. apply Nat.eqb_neq in N. rewrite N. destruct (nth_error (objs s) y) as [a|] eqn:E; [|reflexivity]. apply nth_error_app1. apply (W _ _ E).
  - intros ND. apply NoDup_nth_error. intros i j Hi. rewrite set_nth_length in Hi. rewrite !G. destruct (Nat.eqb_spec i o) as [->|Ni], (Nat.eqb_spec j o) as [->|Nj]; intros E; try reflexivity.
    + symmetry in E. specialize (W _ _ E). lia.
    + specialize (W _ _ E). lia.
    + apply (proj1 (NoDup_nth_error (objs s)) ND i j Hi E).
Qed.

(** ** Calls *)
Section Ext.
Variable qr : nd K -> res (nd K * nd K).
Variable svd : nd K -> res (nd K * list K * nd K).
Variable tsvd : nd K -> nat -> res (nd K * list K * nd K).
Notation exec := (exec qr svd tsvd).
Notation runs := (runs qr svd tsvd).
Notation runi := (runi qr svd tsvd).

Lemma bind_inv {A B : Type} (r : res A) (f : A -> res B) z : bind r f = Ok z -> exists a, r = Ok a /\ f a = Ok z.
Proof. destruct r as [a|e]; [exists a; auto|discriminate]. Qed.
Lemma ok_inj {A : Type} (x y : A) : Ok x = Ok y -> x = y.
Proof. intros E. injection E. auto. Qed.
Ltac unbind H := repeat match type of H with bind ?r ?f = Ok _ => let a := fresh "a" in let E := fresh "E" in apply bind_inv in H; destruct H as (a & E & H); cbv beta in H end.
(** A call without target that does not share returns only new objects and changes no value. *)
Theorem exec_fresh s c s' rs : heap_wf s -> exec s c = Ok (s', rs) -> shares s c = false -> target c = None -> fresh_from s s' rs.
Proof.
  assert (N0 : heap_wf s -> fresh_from s s []) by (intros W; apply (alloc_list_fresh [] s s []); [reflexivity|exact W]).
  intros W E Sh Tg. destruct c; cbn [Heap.exec shares target] in *; try discriminate; unfold alloc_res in E; unbind E; try (apply ok_inj in E; try exact (alloc_list_fresh _ _ _ _ E W)).
  - destruct a0; [exact (alloc_list_fresh _ _ _ _ E W)|]. injection E as <- <-. auto.
  - destruct a0; [|exact (alloc_list_fresh _ _ _ _ E W)]. injection E as <- <-. auto.
  - destruct (look_live _ _ _ E0) as [V _]. rewrite V in Sh. apply orb_false_iff in Sh. destruct Sh as [S1 S2]. rewrite S1, S2 in E. unbind E. destruct a0 as [[l|] [r|]]; try discriminate. apply ok_inj in E. apply (alloc_list_fresh _ _ _ _ E W).
  - rewrite Sh in E. apply ok_inj in E. apply (alloc_list_fresh _ _ _ _ E W).
Qed.
(** A call with a target changes only that object, if nothing is shared. *)
Theorem exec_target s c x s' rs : separate s -> exec s c = Ok (s', rs) -> target c = Some x -> live s x /\ rs = [x] /\ separate s' /\ length (objs s') = length (objs s) /\ forall y, y <> x -> val s' y = val s y.
Proof.
  intros [W ND] E Tg. destruct c; cbn [Heap.exec target] in *; try discriminate; injection Tg as ->; unbind E; injection E as <- <-; destruct (look_live _ _ _ E0) as [_ L].
  - destruct (write_spec s x a0 W L) as (W' & O' & _ & F & _). split; [exact L|]. split; [reflexivity|]. split; [split; [exact W'|rewrite O'; exact ND]|]. split; [rewrite O'; reflexivity|]. intros y N. apply F. apply nodup_cells; auto.
  - destruct (rebind_spec s x (fst a0) W L) as (W' & O' & _ & F & N'). split; [exact L|]. split; [reflexivity|]. split; [split; [exact W'|auto]|]. auto.
Qed.
Theorem exec_keeps s c s' rs : separate s -> exec s c = Ok (s', rs) -> shares s c = false ->
  separate s' /\ length (objs s) <= length (objs s') /\ forall y, live s y -> target c <> Some y -> val s' y = val s y.
Proof.
  intros Sp E Sh. destruct (target c) as [x|] eqn:Tg.
  - destruct (exec_target s c x s' rs Sp E Tg) as (_ & _ & S' & L & F). split; [exact S'|]. split; [lia|]. intros y _ N. apply F. congruence.
  - destruct Sp as [W ND]. destruct (exec_fresh s c s' rs W E Sh Tg) as (W' & _ & L & F & N'). split; [split; auto|]. split; [lia|]. intros y Hy _. apply F. exact Hy.
Qed.
(** Programs in which no call shares *)
Fixpoint unshared (s : store) (cs : list call) : Prop :=
  match cs with [] => True | c :: cs' => shares s c = false /\ forall p, exec s c = Ok p -> unshared (fst p) cs' end.
Theorem runs_keeps cs : forall s s', separate s -> runs s cs = Ok s' -> unshared s cs ->
  separate s' /\ length (objs s) <= length (objs s') /\ forall y, live s y -> (forall c, In c cs -> target c <> Some y) -> val s' y = val s y.
Proof.
  induction cs as [|c cs IH]; intros s s' Sp E U; cbn [Heap.runs] in E.
  - injection E as <-. auto.
  - apply bind_inv in E. destruct E as ([s1 rs] & E1 & E). cbn [fst] in E. cbn [unshared] in U. destruct U as [Sh U]. specialize (U _ E1). cbn [fst] in U.
    destruct (exec_keeps s c s1 rs Sp E1 Sh) as (S1 & L1 & F1). destruct (IH s1 s' S1 E U) as (S2 & L2 & F2). split; [exact S2|]. split; [lia|]. intros y Hy N.
    rewrite F2 by (try (intros; apply N; right; assumption); unfold live in *; lia). apply F1; [exact Hy|]. apply N. left. reflexivity.
Qed.
(** Calls with a target never share. *)
Lemma targets_unshared cs : forall s, (forall c, In c cs -> target c <> None) -> unshared s cs.
Proof.
  induction cs as [|c cs IH]; intros s H; cbn [unshared]; [exact I|]. split.
  - specialize (H c (or_introl eq_refl)). destruct c; cbn in *; try reflexivity; congruence.
  - intros p _. apply IH. intros c' Hc. apply H. right. exact Hc.
Qed.
(** Whatever is done in place to the results of a call, the objects that existed before keep their value. *)
Theorem results_independent s c s1 rs cs s2 : separate s -> exec s c = Ok (s1, rs) -> shares s c = false -> target c = None ->
  (forall c', In c' cs -> exists r, In r rs /\ target c' = Some r) -> runs s1 cs = Ok s2 -> forall y, live s y -> val s2 y = val s y.
Proof.
  intros Sp E Sh Tg H R y Hy. pose proof Sp as [W ND]. destruct (exec_fresh s c s1 rs W E Sh Tg) as (W1 & Rs & L1 & F1 & N1).
  destruct (runs_keeps cs s1 s2 (conj W1 (N1 ND)) R (targets_unshared cs s1 (fun c' Hc => match H c' Hc with ex_intro _ r (conj _ T) => fun Z => eq_ind (Some r) (fun o => match o with Some _ => True | None => False end) I None (eq_trans (eq_sym T) Z) end))) as (_ & _ & F2).
  rewrite F2; [apply F1; exact Hy|unfold live in *; lia|]. intros c' Hc T. destruct (H c' Hc) as (r & Hr & T'). rewrite T' in T. injection T as ->. rewrite Rs in Hr. apply in_seq in Hr. unfold live in Hy. lia.
Qed.
(** Whatever is done in place to the arguments afterwards, the results keep their value. *)
Theorem arguments_independent s c s1 rs cs s2 : separate s -> exec s c = Ok (s1, rs) -> shares s c = false -> target c = None ->
  (forall c', In c' cs -> exists y, live s y /\ target c' = Some y) -> runs s1 cs = Ok s2 -> forall r, In r rs -> val s2 r = val s1 r.
Proof.
  intros Sp E Sh Tg H R r Hr. pose proof Sp as [W ND]. destruct (exec_fresh s c s1 rs W E Sh Tg) as (W1 & Rs & L1 & F1 & N1). rewrite Rs in Hr. apply in_seq in Hr.
  destruct (runs_keeps cs s1 s2 (conj W1 (N1 ND)) R (targets_unshared cs s1 (fun c' Hc => match H c' Hc with ex_intro _ r (conj _ T) => fun Z => eq_ind (Some r) (fun o => match o with Some _ => True | None => False end) I None (eq_trans (eq_sym T) Z) end))) as (_ & _ & F2).
  apply F2; [unfold live; lia|]. intros c' Hc T. destruct (H c' Hc) as (y & Hy & T'). rewrite T' in T. injection T as ->. unfold live in Hy. lia.
Qed.
(** What the calls that share return *)
Theorem shared_results s x a : heap_wf s -> val s x = Some a ->
  exec s (CPos x) = Ok (s, [x]) /\
  (forall g, group_sites a 1 = Ok g -> exec s (CGroup x 1) = Ok (s, [x])) /\
  (forall pos, (pos < 0)%Z \/ (Z.of_nat (llen a) <= pos)%Z -> exec s (CSplit x pos) = Ok (s, [x])) /\
  (exists s' r, exec s (CWrap x) = Ok (s', [r]) /\ r = length (objs s) /\ cell_of s' r = cell_of s' x /\ val s' r = Some a /\ heap_wf s' /\ forall y, live s y -> cell_of s' y = cell_of s y /\ val s' y = val s y).
Proof.
  intros W V. assert (Lk : look s x = Ok a) by (unfold look; rewrite V; reflexivity). pose proof (proj2 (look_live _ _ _ Lk)) as L.
  split; [cbn [Heap.exec]; rewrite Lk; reflexivity|]. split; [intros g G; cbn [Heap.exec]; rewrite Lk; cbn [bind]; rewrite G; reflexivity|]. split.
  - intros pos H. cbn [Heap.exec]. rewrite Lk. cbn [bind]. destruct (Z.ltb_spec pos 0); [reflexivity|]. destruct (Z.leb_spec (Z.of_nat (llen a)) pos); [reflexivity|lia].
  - cbn [Heap.exec]. rewrite Lk. cbn [bind]. assert (C : exists k, cell_of s x = Some k) by (unfold cell_of; destruct (nth_error (objs s) x) as [k|] eqn:E; [exists k; reflexivity|apply nth_error_None in E; unfold live in L; lia]).
    destruct C as [k C]. rewrite C. cbn [wrap]. eexists; eexists. split; [reflexivity|]. split; [reflexivity|].
    assert (O : forall y, live s y -> nth_error (objs s ++ [k]) y = nth_error (objs s) y) by (intros y Hy; apply nth_error_app1; exact Hy).
    assert (R : nth_error (objs s ++ [k]) (length (objs s)) = Some k) by (rewrite nth_error_app2, Nat.sub_diag by lia; reflexivity).
    assert (F : forall y, live s y -> cell_of (mkStore (cells s) (objs s ++ [k])) y = cell_of s y /\ val (mkStore (cells s) (objs s ++ [k])) y = val s y) by (intros y Hy; unfold val, cell_of; cbn [cells objs]; rewrite O by exact Hy; split; reflexivity).
    split; [rewrite (proj1 (F x L)), C; exact R|]. split; [rewrite <- V; unfold val; rewrite C; unfold cell_of; cbn [cells objs]; rewrite R; reflexivity|]. split; [|exact F].
    intros o b. cbn [cells objs]. intros E. destruct (Nat.lt_ge_cases o (length (objs s))) as [H|H]; [rewrite O in E by exact H; apply (W _ _ E)|].
    rewrite nth_error_app2 in E by lia. destruct (o - length (objs s)) as [|m]; cbn [nth_error] in E; [injection E as <-; apply (W x); exact C|destruct m; discriminate].
Qed.
(** What is done in place to one object happens to all objects with its cell, and to no others. *)
Theorem shared_write s i x a b : heap_wf s -> val s x = Some a -> runi i a = Ok b ->
  exists s', exec s (CIn i x) = Ok (s', [x]) /\ heap_wf s' /\ (forall y, cell_of s' y = cell_of s y) /\
    forall y, (cell_of s y = cell_of s x -> val s' y = Some b) /\ (cell_of s y <> cell_of s x -> val s' y = val s y).
Proof.
  intros W V R. assert (Lk : look s x = Ok a) by (unfold look; rewrite V; reflexivity). pose proof (proj2 (look_live _ _ _ Lk)) as L.
  destruct (write_spec s x b W L) as (W' & O & _ & F & G). exists (write s x b). cbn [Heap.exec]. rewrite Lk. cbn [bind]. rewrite R. split; [reflexivity|]. split; [exact W'|]. split; [intros y; unfold cell_of; rewrite O; reflexivity|]. intros y. split; [apply G|apply F].
Qed.
(** compress(method='var') gives the object a cell of its own. *)
Theorem var_unshares s x n r v rc s' rs : heap_wf s -> exec s (CVar x n r v rc) = Ok (s', rs) ->
  heap_wf s' /\ (forall y, y <> x -> val s' y = val s y) /\ forall y, y <> x -> cell_of s' y <> cell_of s' x.
Proof.
  intros W E. cbn [Heap.exec] in E. unbind E. injection E as <- <-. destruct (look_live _ _ _ E0) as [_ L]. destruct (rebind_spec s x (fst a0) W L) as (W' & _ & _ & F & _). split; [exact W'|]. split; [exact F|].
  intros y N. unfold cell_of, rebind. cbn [cells objs]. rewrite nth_error_set_nth_eq by exact L. rewrite nth_error_set_nth by exact N. intros H. specialize (W _ _ H). lia.
Qed.
(** The values of the results *)
Theorem exec_value1 s o x a : heap_wf s -> val s x = Some a ->
  match run1 qr svd tsvd o a with
  | Ok b => exists s', exec s (C1 o x) = Ok (s', [length (objs s)]) /\ val s' (length (objs s)) = Some b
  | Err e => exec s (C1 o x) = Err e end.
Proof.
  intros W V. cbn [Heap.exec]. unfold look, alloc_res. rewrite V. cbn [bind]. destruct (run1 qr svd tsvd o a) as [b|e]; [|reflexivity]. cbn [bind]. destruct (alloc_list s [b]) as [s' os] eqn:E. destruct (alloc_list_spec _ _ _ _ E W) as (_ & -> & _ & V' & _). exists s'. split; [reflexivity|]. rewrite <- (V' 0 b eq_refl). f_equal. lia.
Qed.

(** ** Canonicalization, norms and singular values *)
Section Reading.
Hypothesis Hqr : qr_sound qr.
Hypothesis Hsvd : svd_sound svd.
Definition reading (i : inpl K) : bool := match i with ICanonicalize _ _ | INorm | ISingularvals => true | _ => false end.
Lemma reading_keeps i a b : good a -> reading i = true -> runi i a = Ok b -> good b /\ mshape b = mshape a /\ to_array b = to_array a.
Proof.
  intros G Hi E. pose proof G as [Hx [Hw Ht]].
  assert (C : forall l r z, canonicalize qr a l r = Ok z -> good z /\ mshape z = mshape a /\ to_array z = to_array a).
  { intros l r z Ez. destruct (canonicalize_sim qr Hqr a z l r Hx Hw Ez) as [H1 H2]. split; [exact (good_sim a z G H1 H2)|]. destruct (sim_dense a z (proj1 Hx) H1) as (_ & S & _ & T & _). auto. }
  destruct i; try discriminate; cbn [Heap.runi] in E.
  - exact (C _ _ _ E).
  - apply bind_inv in E. destruct E as ([v z] & E & E'). apply ok_inj in E'. cbn [snd] in E'. subst z. unfold norm_sq in E. apply bind_inv in E. destruct E as (y & Ey & E). cbv beta in E.
    assert (b = y) as ->.
    { destruct (canonical_form y) as [cl cr]. destruct (cr =? 1)%Z; [|destruct (cl =? _)%Z; [|discriminate]]; apply bind_inv in E; destruct E as (t & _ & E); congruence. }
    exact (C _ _ _ Ey).
  - apply bind_inv in E. destruct E as ([v z] & E & E'). apply ok_inj in E'. cbn [snd] in E'. subst z. destruct (svals_good qr Hqr svd Hsvd a b v G E) as [G' S']. split; [exact G'|]. split; [exact S'|].
    destruct (Nat.eq_dec (llen a) 1) as [E1|E1].
    + unfold singularvals in E. rewrite E1 in E. cbn [Nat.eqb] in E. congruence.
    + assert (2 <= llen a). { destruct Hx as [[Hne _] _]. unfold llen in *. destruct (lts a) as [|u [|w l]]; [congruence|cbn in E1; lia|cbn; lia]. }
      pose proof (outc_inv _ _ _ _ (singularvals_spec qr svd Hqr Hsvd 1 1 a (pos_chain _ Hx) Hw Ht H) E) as H'. cbn beta in H'. destruct H' as (_ & _ & _ & _ & _ & A & _). apply same_amps_dense; auto; [apply Hx|apply G'].
Qed.
(** What an object represents *)
Definition represents (s : store) (o : nat) : option (list (list nat) * nd K) := match val s o with Some a => Some (mshape a, to_array a) | None => None end.
Definition all_good (s : store) : Prop := forall o a, val s o = Some a -> good a.
Theorem reading_shared cs : forall s s', heap_wf s -> all_good s -> (forall c, In c cs -> exists i x, c = CIn i x /\ reading i = true) -> runs s cs = Ok s' ->
  all_good s' /\ forall y, represents s' y = represents s y.
Proof.
  induction cs as [|c cs IH]; intros s s' W G H E; cbn [Heap.runs] in E.
  - apply ok_inj in E. subst s'. auto.
  - destruct (H c (or_introl eq_refl)) as (i & x & -> & Hi). apply bind_inv in E. destruct E as ([s1 rs] & E1 & E). cbn [fst] in E.
    assert (D : exists a b, val s x = Some a /\ runi i a = Ok b) by (cbn [Heap.exec] in E1; unbind E1; eexists; eexists; split; [apply (look_live _ _ _ E0)|exact E2]).
    destruct D as (a & b & Va & Rb). destruct (shared_write s i x a b W Va Rb) as (s2 & E2 & W2 & C2 & F2). rewrite E1 in E2. injection E2 as E2a _. subst s2. destruct (reading_keeps i a b (G _ _ Va) Hi Rb) as (Gb & Sb & Tb).
    assert (D : forall y, cell_of s y = cell_of s x \/ cell_of s y <> cell_of s x) by (intros y; destruct (cell_of s y) as [u|], (cell_of s x) as [w|]; try (right; congruence); try (left; reflexivity); destruct (Nat.eq_dec u w); [left|right]; congruence).
    assert (G1 : all_good s1) by (intros y u Vy; destruct (D y) as [Q|Q]; [rewrite (proj1 (F2 y) Q) in Vy; injection Vy as <-; exact Gb|rewrite (proj2 (F2 y) Q) in Vy; apply (G _ _ Vy)]).
    destruct (IH s1 s' W2 G1 (fun c Hc => H c (or_intror Hc)) E) as [G' R']. split; [exact G'|]. intros y. rewrite R'. unfold represents. destruct (D y) as [Q|Q].
    + rewrite (proj1 (F2 y) Q). assert (Vy : val s y = Some a) by (unfold val; rewrite Q; exact Va). rewrite Vy, Sb, Tb. reflexivity.
    + rewrite (proj2 (F2 y) Q). reflexivity.
Qed.
End Reading.
End Ext.
End Heap.
