(** Proofs about named arrays: everything is stated by assigning an index to every
    axis name. *)
From Coq Require Import String Permutation.
From Verif Require Export NamedNd NdFacts Dense.

(** ** Specification *)
Section Spec.
Context {K : StarRing}.

(** The entry of [x] where the axis named [s] has index [v s]. *)
Definition nget (x : named K) (v : string -> nat) : K := get (narr x) (map v (nnames x)).

(** A usable named array: one name per axis, no name twice. *)
Definition named_ok (x : named K) : Prop :=
  ndwf (narr x) /\ List.length (nnames x) = ndim (narr x) /\ NoDup (nnames x).

(** Dimension of the axis named [s]. *)
Fixpoint dimof (s : string) (names : list string) (sh : list nat) : nat :=
  match names, sh with
  | n :: names', d :: sh' => if String.eqb s n then d else dimof s names' sh'
  | _, _ => 0
  end.
Definition ndimof (x : named K) (s : string) : nat := dimof s (nnames x) (shp (narr x)).

(** [v] gives every axis of [x] an index in range. *)
Definition in_range (v : string -> nat) (x : named K) : Prop :=
  forall s, In s (nnames x) -> v s < ndimof x s.

(** [v] with the names [ns] assigned the values [c]. *)
Fixpoint assign (v : string -> nat) (ns : list string) (c : list nat) (s : string) : nat :=
  match ns, c with
  | n :: ns', k :: c' => if String.eqb s n then k else assign v ns' c' s
  | _, _ => v s
  end.

(** The new name of [s] under a list of (old, new) pairs; a later pair for the same
    old name wins. *)
Definition renamed (tr : list (string * string)) (s : string) : string :=
  fold_left (fun acc p => if String.eqb (fst p) s then snd p else acc) tr s.
End Spec.

(** ** Lists of names *)
Lemma smemb_iff s l : smemb s l = true <-> In s l.
Proof.
  unfold smemb. rewrite existsb_exists. split.
  - intros [x [Hx E]]. apply String.eqb_eq in E. subst. exact Hx.
  - intro H. exists s. split; [exact H|apply String.eqb_refl].
Qed.

Lemma smemb_false s l : smemb s l = false <-> ~ In s l.
Proof. rewrite <- smemb_iff. destruct (smemb s l); intuition congruence. Qed.

Lemma snodupb_iff l : snodupb l = true <-> NoDup l.
Proof.
  induction l as [|s l IH]; cbn [snodupb].
  - split; [constructor|reflexivity].
  - rewrite andb_true_iff, negb_true_iff, smemb_false, IH. split.
    + intros [H1 H2]. constructor; assumption.
    + intro H. inversion H. split; assumption.
Qed.

Lemma sindex_spec s l k : sindex s l = Some k -> k < List.length l /\ nth_error l k = Some s.
Proof.
  revert k. induction l as [|x l IH]; intros k H; [discriminate|]. cbn [sindex] in H.
  destruct (String.eqb_spec s x) as [->|Hne].
  - injection H as <-. cbn. split; [lia|reflexivity].
  - destruct (sindex s l) as [j|] eqn:E; cbn in H; [|discriminate]. injection H as <-.
    destruct (IH j eq_refl) as [H1 H2]. cbn. split; [lia|exact H2].
Qed.

Lemma sindex_in s l : In s l -> exists k, sindex s l = Some k.
Proof.
  induction l as [|x l IH]; intros H; [contradiction|]. cbn [sindex].
  destruct (String.eqb_spec s x) as [->|Hne]; [eexists; reflexivity|].
  destruct H as [->|H]; [congruence|]. destruct (IH H) as [k ->]. eexists; reflexivity.
Qed.

Lemma sindex_none s l : sindex s l = None <-> ~ In s l.
Proof.
  split.
  - intros H Hin. destruct (sindex_in s l Hin) as [k E]. congruence.
  - intro H. destruct (sindex s l) as [k|] eqn:E; [|reflexivity].
    exfalso. apply H. destruct (sindex_spec _ _ _ E) as [_ Hk]. eapply nth_error_In; exact Hk.
Qed.

Lemma nth_error_eq_nodup {A} (l : list A) i j x :
  NoDup l -> nth_error l i = Some x -> nth_error l j = Some x -> i = j.
Proof.
  intros Hnd Hi Hj. rewrite NoDup_nth_error in Hnd. apply Hnd; [|congruence].
  apply nth_error_Some. congruence.
Qed.

(** Position of a name, total. *)
Definition pos_of (l : list string) (s : string) : nat :=
  match sindex s l with Some k => k | None => 0 end.

Lemma pos_of_lt l s : In s l -> pos_of l s < List.length l.
Proof.
  intro H. unfold pos_of. destruct (sindex_in s l H) as [k E]. rewrite E.
  apply (sindex_spec _ _ _ E).
Qed.
Lemma pos_of_nth l s d : In s l -> nth (pos_of l s) l d = s.
Proof.
  intro H. unfold pos_of. destruct (sindex_in s l H) as [k E]. rewrite E.
  apply nth_error_nth. apply (sindex_spec _ _ _ E).
Qed.
Lemma pos_of_nth_r l k d : NoDup l -> k < List.length l -> pos_of l (nth k l d) = k.
Proof.
  intros Hnd Hk. unfold pos_of.
  destruct (sindex_in (nth k l d) l (nth_In _ _ Hk)) as [j E]. rewrite E.
  destruct (sindex_spec _ _ _ E) as [_ Hj].
  eapply nth_error_eq_nodup; [exact Hnd|exact Hj|]. apply nth_error_nth'. exact Hk.
Qed.
Lemma pos_of_inj l s t : In s l -> In t l -> pos_of l s = pos_of l t -> s = t.
Proof.
  intros Hs Ht E. rewrite <- (pos_of_nth l s ""%string Hs), E. apply pos_of_nth. exact Ht.
Qed.

Lemma gather_pos (v : string -> nat) names ns :
  incl ns names -> gather (map (pos_of names) ns) (map v names) = map v ns.
Proof.
  intro H. unfold gather. rewrite map_map. apply map_ext_in. intros s Hs.
  pose proof (pos_of_lt names s (H s Hs)) as Hlt.
  rewrite (nth_indep _ 0 (v ""%string)) by (rewrite map_length; exact Hlt).
  rewrite map_nth. rewrite pos_of_nth by (apply H; exact Hs). reflexivity.
Qed.

Lemma map_pos_id names : NoDup names -> map (pos_of names) names = seq 0 (List.length names).
Proof.
  intro Hnd. apply (nth_ext _ _ 0 0); [rewrite map_length, seq_length; reflexivity|].
  intros k Hk. rewrite map_length in Hk. rewrite seq_nth by exact Hk.
  rewrite (nth_indep _ 0 (pos_of names ""%string)) by (rewrite map_length; exact Hk).
  rewrite map_nth. apply pos_of_nth_r; assumption.
Qed.

Lemma map_pos_nodup names ns :
  incl ns names -> NoDup ns -> NoDup (map (pos_of names) ns).
Proof.
  intros Hi. induction 1 as [|s ns Hs Hn IH]; cbn [map]; constructor.
  - intro Hin. apply in_map_iff in Hin. destruct Hin as [t [E Ht]].
    apply pos_of_inj in E; [subst; contradiction| |].
    + apply Hi. right. exact Ht.
    + apply Hi. left. reflexivity.
  - apply IH. intros t Ht. apply Hi. right. exact Ht.
Qed.

Lemma sincl_dec (l m : list string) : {incl l m} + {~ incl l m}.
Proof.
  induction l as [|s l [IH|IH]].
  - left. intros t [].
  - destruct (in_dec string_dec s m) as [H|H].
    + left. intros t [->|Ht]; [exact H|apply IH; exact Ht].
    + right. intro Hi. apply H. apply Hi. left. reflexivity.
  - right. intro Hi. apply IH. intros t Ht. apply Hi. right. exact Ht.
Qed.

(** The free axes are those whose names are not contracted. *)
Lemma freeaxes_pos names ns :
  NoDup names -> incl ns names ->
  freeaxes (List.length names) (map (pos_of names) ns) =
  map (pos_of names) (filter (fun s => negb (smemb s ns)) names).
Proof.
  intros Hnd Hi. unfold freeaxes. rewrite <- (map_pos_id names Hnd).
  assert (G : forall l, incl l names ->
    filter (fun k => negb (memb k (map (pos_of names) ns))) (map (pos_of names) l) =
    map (pos_of names) (filter (fun s => negb (smemb s ns)) l)).
  { induction l as [|s l IH]; intro Hl; [reflexivity|]. cbn [map filter].
    assert (E : memb (pos_of names s) (map (pos_of names) ns) = smemb s ns).
    { destruct (smemb s ns) eqn:E.
      - apply smemb_iff in E. apply memb_iff. apply in_map. exact E.
      - apply smemb_false in E. apply memb_false_iff. intro Hin. apply in_map_iff in Hin.
        destruct Hin as [t [E' Ht]]. apply E.
        apply pos_of_inj in E'; [subst; exact Ht|apply Hi; exact Ht|apply Hl; left; reflexivity]. }
    rewrite E. rewrite IH by (intros t Ht; apply Hl; right; exact Ht).
    destruct (smemb s ns); reflexivity. }
  apply G. apply incl_refl.
Qed.

Lemma nodup_filter {A} (f : A -> bool) l : NoDup l -> NoDup (filter f l).
Proof. apply NoDup_filter. Qed.

(** ** Assignments *)
Lemma assign_notin v ns c s : ~ In s ns -> assign v ns c s = v s.
Proof.
  revert c. induction ns as [|n ns IH]; intros c H; [destruct c; reflexivity|].
  destruct c as [|k c]; [reflexivity|]. cbn [assign].
  destruct (String.eqb_spec s n) as [->|Hne]; [exfalso; apply H; left; reflexivity|].
  apply IH. intro Hin. apply H. right. exact Hin.
Qed.
Lemma map_assign v ns c : NoDup ns -> List.length c = List.length ns -> map (assign v ns c) ns = c.
Proof.
  intro Hnd. revert c. induction Hnd as [|n ns Hn Hnd IH]; intros c Hc.
  - destruct c; [reflexivity|discriminate].
  - destruct c as [|k c]; [discriminate|]. cbn [map]. f_equal; [cbn [assign]; rewrite String.eqb_refl; reflexivity|].
    rewrite <- (IH c) at 2 by (cbn in Hc; lia). apply map_ext_in. intros s Hs. cbn [assign].
    destruct (String.eqb_spec s n) as [->|Hne]; [contradiction|reflexivity].
Qed.
Lemma map_assign_free v ns c l : 
  map (assign v ns c) (filter (fun s => negb (smemb s ns)) l) = map v (filter (fun s => negb (smemb s ns)) l).
Proof.
  apply map_ext_in. intros s Hs. apply filter_In in Hs. destruct Hs as [_ Hs].
  apply negb_true_iff, smemb_false in Hs. apply assign_notin. exact Hs.
Qed.

Lemma dimof_pos names sh s :
  List.length names = List.length sh -> In s names -> dimof s names sh = nth (pos_of names s) sh 0.
Proof.
  revert sh. induction names as [|n names IH]; intros sh Hl Hs; [contradiction|].
  destruct sh as [|d sh]; [discriminate|]. cbn [dimof]. unfold pos_of. cbn [sindex].
  destruct (String.eqb_spec s n) as [->|Hne]; [reflexivity|].
  destruct Hs as [->|Hs]; [congruence|].
  rewrite (IH sh) by (cbn in Hl; try lia; exact Hs). unfold pos_of.
  destruct (sindex_in s names Hs) as [k ->]. reflexivity.
Qed.

Section Pf.
Context {K : StarRing}.
Implicit Types x y z : named K.

Lemma axispos_ok x s : In s (nnames x) -> axispos x s = Ok (pos_of (nnames x) s).
Proof.
  intro H. unfold axispos, pos_of. destruct (sindex_in s _ H) as [k ->]. reflexivity.
Qed.
Lemma axispos_err x s : ~ In s (nnames x) -> axispos x s = Err ValueError.
Proof. intro H. unfold axispos. apply sindex_none in H. rewrite H. reflexivity. Qed.

Lemma axisposs_ok x ns : incl ns (nnames x) -> mapM (axispos x) ns = Ok (map (pos_of (nnames x)) ns).
Proof.
  induction ns as [|s ns IH]; intro H; [reflexivity|]. cbn [mapM map].
  rewrite axispos_ok by (apply H; left; reflexivity). cbn [bind].
  rewrite IH by (intros t Ht; apply H; right; exact Ht). reflexivity.
Qed.
Lemma axisposs_err x ns : ~ incl ns (nnames x) -> mapM (axispos x) ns = Err ValueError.
Proof.
  induction ns as [|s ns IH]; intro H; [exfalso; apply H; intros t []|]. cbn [mapM].
  destruct (in_dec string_dec s (nnames x)) as [Hs|Hs].
  - rewrite (axispos_ok x s Hs). cbn [bind]. rewrite IH; [reflexivity|].
    intro Hi. apply H. intros t [->|Ht]; [exact Hs|apply Hi; exact Ht].
  - rewrite (axispos_err x s Hs). reflexivity.
Qed.

(** ** Construction *)
Lemma named_new_spec (a : nd K) names :
  List.length names = ndim a -> NoDup names ->
  named_new a names = Ok (mkNamed a names).
Proof.
  intros Hl Hn. unfold named_new. rewrite Hl, Nat.eqb_refl. cbn [passert].
  apply snodupb_iff in Hn. rewrite Hn. reflexivity.
Qed.
Lemma named_new_error (a : nd K) names :
  List.length names <> ndim a \/ ~ NoDup names -> named_new a names = Err AssertionError.
Proof.
  intros H. unfold named_new. destruct (Nat.eqb_spec (ndim a) (List.length names)) as [E|E]; [|reflexivity].
  cbn [passert]. destruct (snodupb names) eqn:Hn; [|reflexivity].
  apply snodupb_iff in Hn. destruct H; [congruence|contradiction].
Qed.

(** ** rename *)
Lemma set_nth_map (f : string -> string) names k s :
  NoDup names -> nth_error names k = Some s -> forall new,
  set_nth k new (map f names) = map (fun t => if String.eqb s t then new else f t) names.
Proof.
  revert k. induction names as [|n names IH]; intros k Hnd Hk new; [destruct k; discriminate|].
  inversion Hnd as [|? ? Hn Hnd']; subst. destruct k as [|k]; cbn [set_nth map].
  - injection Hk as <-. rewrite String.eqb_refl. f_equal. apply map_ext_in. intros t Ht.
    destruct (String.eqb_spec n t) as [->|]; [contradiction|reflexivity].
  - cbn in Hk. rewrite (IH k Hnd' Hk). f_equal.
    destruct (String.eqb_spec s n) as [->|]; [|reflexivity].
    exfalso. apply Hn. eapply nth_error_In. exact Hk.
Qed.

Lemma rename_loop x (tr : list (string * string)) (f : string -> string) :
  NoDup (nnames x) -> incl (map fst tr) (nnames x) ->
  foldM (fun names (p : string * string) => do k <- axispos x (fst p); Ok (set_nth k (snd p) names)) tr
        (map f (nnames x)) =
  Ok (map (fun s => fold_left (fun acc p => if String.eqb (fst p) s then snd p else acc) tr (f s))
          (nnames x)).
Proof.
  intros Hnd. revert f. induction tr as [|p tr IH]; intros f Hi; [reflexivity|].
  cbn [foldM fold_left].
  assert (Hp : In (fst p) (nnames x)) by (apply Hi; left; reflexivity).
  rewrite (axispos_ok x _ Hp). cbn [bind].
  rewrite (set_nth_map f (nnames x) _ (fst p) Hnd).
  - rewrite IH by (intros t Ht; apply Hi; right; exact Ht). reflexivity.
  - rewrite (nth_error_nth' _ ""%string) by (apply pos_of_lt; exact Hp).
    rewrite pos_of_nth by exact Hp. reflexivity.
Qed.

Lemma rename_loop_err x tr names :
  ~ incl (map fst tr) (nnames x) ->
  foldM (fun names (p : string * string) => do k <- axispos x (fst p); Ok (set_nth k (snd p) names)) tr names = Err ValueError.
Proof.
  revert names. induction tr as [|p tr IH]; intros names H; [exfalso; apply H; intros t []|].
  cbn [foldM]. destruct (in_dec string_dec (fst p) (nnames x)) as [Hs|Hs].
  - rewrite (axispos_ok x _ Hs). cbn [bind]. apply IH. intro Hi. apply H.
    intros t [<-|Ht]; [exact Hs|apply Hi; exact Ht].
  - rewrite (axispos_err x _ Hs). reflexivity.
Qed.

Lemma nrename_spec x tr :
  named_ok x -> incl (map fst tr) (nnames x) -> NoDup (map (renamed tr) (nnames x)) ->
  exists z, nrename x tr = Ok z /\ named_ok z /\ nnames z = map (renamed tr) (nnames x) /\
    narr z = narr x /\
    forall v, nget z v = nget x (fun s => v (renamed tr s)).
Proof.
  intros [Hw [Hl Hnd]] Hi Hnd'. unfold nrename.
  pose proof (rename_loop x tr (fun s => s) Hnd Hi) as HL. rewrite map_id in HL. rewrite HL. clear HL. cbn [bind].
  change (map _ (nnames x)) with (map (renamed tr) (nnames x)).
  rewrite named_new_spec; [|rewrite map_length; exact Hl|exact Hnd'].
  eexists. split; [reflexivity|]. split; [|split; [reflexivity|split; [reflexivity|]]].
  - split; [exact Hw|]. cbn [nnames narr]. rewrite map_length. split; assumption.
  - intro v. unfold nget. cbn [nnames narr]. rewrite map_map. reflexivity.
Qed.

Lemma nrename_unknown x tr :
  ~ incl (map fst tr) (nnames x) -> nrename x tr = Err ValueError.
Proof. intro H. unfold nrename. rewrite rename_loop_err by exact H. reflexivity. Qed.

Lemma nrename_clash x tr :
  named_ok x -> incl (map fst tr) (nnames x) -> ~ NoDup (map (renamed tr) (nnames x)) ->
  nrename x tr = Err AssertionError.
Proof.
  intros [Hw [Hl Hnd]] Hi Hnd'. unfold nrename.
  pose proof (rename_loop x tr (fun s => s) Hnd Hi) as HL. rewrite map_id in HL. rewrite HL. clear HL. cbn [bind].
  apply named_new_error. right. exact Hnd'.
Qed.

Lemma fold_renamed_notin tr s acc : ~ In s (map fst tr) ->
  fold_left (fun acc (p : string * string) => if String.eqb (fst p) s then snd p else acc) tr acc = acc.
Proof.
  revert acc. induction tr as [|p tr IH]; intros acc H; [reflexivity|]. cbn [fold_left].
  destruct (String.eqb_spec (fst p) s) as [E|E]; [exfalso; apply H; left; exact E|].
  apply IH. intro Hi. apply H. right. exact Hi.
Qed.
Lemma renamed_in tr s t : NoDup (map fst tr) -> In (s, t) tr -> renamed tr s = t.
Proof.
  unfold renamed. generalize s at 3. revert s t.
  induction tr as [|p tr IH]; intros s t acc Hnd H; [contradiction|]. cbn [fold_left].
  inversion Hnd as [|? ? Hn Hnd']; subst. destruct H as [->|H].
  - cbn [fst snd]. rewrite String.eqb_refl. apply fold_renamed_notin. exact Hn.
  - apply IH; assumption.
Qed.
Lemma renamed_notin tr s : ~ In s (map fst tr) -> renamed tr s = s.
Proof. apply fold_renamed_notin. Qed.

(** ** conj *)
Lemma named_conj_spec x :
  named_ok x ->
  exists z, named_conj x = Ok z /\ named_ok z /\ nnames z = nnames x /\
    forall v, nget z v = kconj (nget x v).
Proof.
  intros [Hw [Hl Hnd]]. unfold named_conj.
  rewrite named_new_spec; [|exact Hl|exact Hnd].
  eexists. split; [reflexivity|]. split; [|split; [reflexivity|]].
  - split; [|split; assumption]. unfold ndwf in *. cbn. rewrite map_length. exact Hw.
  - intro v. unfold nget. cbn [nnames narr]. apply get_nconj.
Qed.

(** ** to_array *)
Lemma permb_iff axes n : permb axes n = true <-> (List.length axes = n /\ is_perm axes).
Proof.
  unfold permb. rewrite andb_true_iff, Nat.eqb_eq, forallb_forall. split.
  - intros [Hl H]. split; [exact Hl|]. unfold is_perm. rewrite Hl. symmetry.
    apply NoDup_Permutation_bis; [apply seq_NoDup|rewrite seq_length; lia|].
    intros k Hk. apply memb_iff. apply H. exact Hk.
  - intros [Hl H]. split; [exact Hl|]. intros k Hk. apply memb_iff. unfold is_perm in H. rewrite Hl in H.
    eapply Permutation_in; [symmetry; exact H|exact Hk].
Qed.

Lemma in_range_inr v x ns : named_ok x -> incl ns (nnames x) -> in_range v x ->
  inr (map v ns) (gather (map (pos_of (nnames x)) ns) (shp (narr x))).
Proof.
  intros [Hw [Hl Hnd]] Hi Hv. induction ns as [|s ns IH]; cbn [map gather].
  - constructor.
  - constructor.
    + specialize (Hv s (Hi s (or_introl eq_refl))). unfold ndimof in Hv.
      rewrite dimof_pos in Hv by (try exact Hl; apply Hi; left; reflexivity). exact Hv.
    + apply IH. intros t Ht. apply Hi. right. exact Ht.
Qed.

Lemma gather_dims x ns : named_ok x -> incl ns (nnames x) ->
  gather (map (pos_of (nnames x)) ns) (shp (narr x)) = map (ndimof x) ns.
Proof.
  intros [Hw [Hl Hnd]] Hi. unfold gather. rewrite map_map. apply map_ext_in. intros s Hs.
  unfold ndimof. rewrite dimof_pos; [reflexivity|exact Hl|apply Hi; exact Hs].
Qed.

Lemma nto_array_spec x order :
  named_ok x -> Permutation order (nnames x) ->
  exists a, nto_array x order = Ok a /\ ndwf a /\ shp a = map (ndimof x) order /\
    forall v, in_range v x -> get a (map v order) = nget x v.
Proof.
  intros Hx Hp. pose proof Hx as [Hw [Hl Hnd]]. unfold nto_array.
  assert (Hi : incl order (nnames x)) by (intros s Hs; eapply Permutation_in; [exact Hp|exact Hs]).
  rewrite (axisposs_ok x order Hi). cbn [bind].
  assert (Hlo : List.length order = ndim (narr x)) by (rewrite (Permutation_length Hp); exact Hl).
  assert (Hperm : is_perm (map (pos_of (nnames x)) order)).
  { unfold is_perm. rewrite map_length, Hlo, <- Hl. rewrite <- (map_pos_id _ Hnd).
    apply Permutation_map. exact Hp. }
  assert (Hb : permb (map (pos_of (nnames x)) order) (ndim (narr x)) = true).
  { apply permb_iff. rewrite map_length. split; [exact Hlo|exact Hperm]. }
  rewrite Hb. cbn [praise_unless]. eexists. split; [reflexivity|]. split; [apply wf_tab|]. split.
  - unfold transpose. cbn [shp tab]. apply gather_dims; assumption.
  - intros v Hv. unfold transpose. rewrite get_tab by (apply in_range_inr; assumption).
    unfold nget. f_equal. rewrite <- (gather_pos v (nnames x) order Hi).
    apply scatter_gather; [exact Hperm|]. rewrite !map_length. rewrite Hlo, <- Hl. reflexivity.
Qed.

Lemma nto_array_error x order :
  named_ok x -> ~ Permutation order (nnames x) -> nto_array x order = Err ValueError.
Proof.
  intros [Hw [Hl Hnd]] Hp. unfold nto_array.
  destruct (sincl_dec order (nnames x)) as [Hi|Hi].
  - rewrite (axisposs_ok x order Hi). cbn [bind].
    destruct (permb (map (pos_of (nnames x)) order) (ndim (narr x))) eqn:E; [|reflexivity].
    exfalso. apply Hp. apply permb_iff in E. rewrite map_length in E. destruct E as [El Ep].
    unfold is_perm in Ep. rewrite map_length, El, <- Hl, <- (map_pos_id _ Hnd) in Ep.
    assert (G : forall l, incl l (nnames x) ->
      map (fun k => nth k (nnames x) ""%string) (map (pos_of (nnames x)) l) = l).
    { intros l Hli. rewrite map_map. rewrite <- (map_id l) at 2. apply map_ext_in.
      intros s Hs. apply pos_of_nth. apply Hli. exact Hs. }
    pose proof (Permutation_map (fun k => nth k (nnames x) ""%string) Ep) as E.
    rewrite (G order Hi), (G (nnames x) (incl_refl _)) in E. exact E.
  - rewrite (axisposs_err x order Hi). reflexivity.
Qed.

(** ** tensordot *)
Lemma inr_map_iff (f g : string -> nat) l : (forall s, In s l -> f s < g s) -> inr (map f l) (map g l).
Proof.
  induction l as [|s l IH]; intro H; [constructor|]. constructor.
  - apply H. left. reflexivity.
  - apply IH. intros t Ht. apply H. right. exact Ht.
Qed.

Lemma ntensordot_spec x y axes :
  let ax := map fst axes in
  let ay := map snd axes in
  let fx := filter (fun s => negb (smemb s ax)) (nnames x) in
  let fy := filter (fun s => negb (smemb s ay)) (nnames y) in
  named_ok x -> named_ok y ->
  incl ax (nnames x) -> incl ay (nnames y) -> NoDup ax -> NoDup ay ->
  map (ndimof x) ax = map (ndimof y) ay ->
  NoDup (fx ++ fy) ->
  exists z, ntensordot x y axes = Ok z /\ named_ok z /\ nnames z = fx ++ fy /\
    (forall s, In s fx -> ndimof z s = ndimof x s) /\
    (forall s, In s fy -> ndimof z s = ndimof y s) /\
    forall v, in_range v z ->
      nget z v = msum (map (ndimof x) ax)
                   (fun c => nget x (assign v ax c) * nget y (assign v ay c))%K.
Proof.
  intros ax ay fx fy Hx Hy Hix Hiy Hnx Hny Hd Hnd.
  pose proof Hx as [Hwx [Hlx Hndx]]. pose proof Hy as [Hwy [Hly Hndy]].
  unfold ntensordot. fold ax ay. rewrite (axisposs_ok x ax Hix), (axisposs_ok y ay Hiy). cbn [bind].
  set (px := map (pos_of (nnames x)) ax). set (py := map (pos_of (nnames y)) ay).
  assert (Hpx : NoDup px) by (apply map_pos_nodup; assumption).
  assert (Hpy : NoDup py) by (apply map_pos_nodup; assumption).
  assert (Hgx : gather px (shp (narr x)) = map (ndimof x) ax) by (apply gather_dims; assumption).
  assert (Hgy : gather py (shp (narr y)) = map (ndimof y) ay) by (apply gather_dims; assumption).
  assert (Hix' : incl fx (nnames x)) by (intros s Hs; apply filter_In in Hs; tauto).
  assert (Hiy' : incl fy (nnames y)) by (intros s Hs; apply filter_In in Hs; tauto).
  unfold np_tensordot.
  assert (Hb : nodupb px && nodupb py && list_eqb (gather px (shp (narr x))) (gather py (shp (narr y))) = true).
  { rewrite Hgx, Hgy, Hd. unfold list_eqb.
    destruct (list_eq_dec Nat.eq_dec _ _) as [_|N]; [|congruence].
    rewrite !andb_true_r. apply andb_true_iff. split; apply nodupb_iff; assumption. }
  rewrite Hb. cbn [praise_unless bind].
  assert (Hfx : freeaxes (ndim (narr x)) px = map (pos_of (nnames x)) fx)
    by (rewrite <- Hlx; apply freeaxes_pos; assumption).
  assert (Hfy : freeaxes (ndim (narr y)) py = map (pos_of (nnames y)) fy)
    by (rewrite <- Hly; apply freeaxes_pos; assumption).
  assert (Hsh : shp (tensordot (narr x) (narr y) px py) = map (ndimof x) fx ++ map (ndimof y) fy).
  { unfold tensordot. cbn [shp tab]. rewrite Hfx, Hfy. f_equal; apply gather_dims; assumption. }
  fold fx. fold fy.
  rewrite named_new_spec; [|unfold ndim; rewrite Hsh, !app_length, !map_length; reflexivity|exact Hnd].
  eexists. split; [reflexivity|].
  assert (Hz : named_ok (mkNamed (tensordot (narr x) (narr y) px py) (fx ++ fy))).
  { split; [apply wf_tab|]. cbn [narr nnames]. split; [|exact Hnd].
    unfold ndim. rewrite Hsh, !app_length, !map_length. reflexivity. }
  assert (Hdz : forall s, ndimof (mkNamed (tensordot (narr x) (narr y) px py) (fx ++ fy)) s =
                dimof s (fx ++ fy) (map (ndimof x) fx ++ map (ndimof y) fy)).
  { intro s. unfold ndimof. cbn [narr nnames]. rewrite Hsh. reflexivity. }
  assert (D1 : forall (f : string -> nat) s l l' d, In s l -> dimof s (l ++ l') (map f l ++ d) = f s).
  { intros f s l l' d. induction l as [|n l IH]; intro H; [contradiction|]. cbn.
    destruct (String.eqb_spec s n) as [->|Hne]; [reflexivity|].
    destruct H as [->|H]; [congruence|apply IH; exact H]. }
  assert (D2 : forall (f : string -> nat) s l l' d, ~ In s l -> dimof s (l ++ l') (map f l ++ d) = dimof s l' d).
  { intros f s l l' d. induction l as [|n l IH]; intro H; [reflexivity|]. cbn.
    destruct (String.eqb_spec s n) as [->|Hne]; [exfalso; apply H; left; reflexivity|].
    apply IH. intro Hin. apply H. right. exact Hin. }
  assert (HDx : forall s, In s fx -> ndimof (mkNamed (tensordot (narr x) (narr y) px py) (fx ++ fy)) s = ndimof x s).
  { intros s Hs. rewrite Hdz. apply D1. exact Hs. }
  assert (Hdisj : forall s, In s fy -> ~ In s fx).
  { intros s Hs Hs'. apply in_split in Hs'. destruct Hs' as [l1 [l2 E]]. rewrite E in Hnd.
    rewrite <- app_assoc in Hnd. cbn in Hnd. apply NoDup_remove_2 in Hnd. apply Hnd.
    rewrite !in_app_iff. right. right. exact Hs. }
  assert (HDy : forall s, In s fy -> ndimof (mkNamed (tensordot (narr x) (narr y) px py) (fx ++ fy)) s = ndimof y s).
  { intros s Hs. rewrite Hdz. rewrite D2 by (apply Hdisj; exact Hs).
    rewrite <- (app_nil_r fy) at 1. rewrite <- (app_nil_r (map (ndimof y) fy)). apply D1. exact Hs. }
  split; [exact Hz|]. split; [reflexivity|]. split; [exact HDx|]. split; [exact HDy|].
  intros v Hv. unfold nget at 1. cbn [nnames narr]. rewrite map_app.
  rewrite get_tensordot.
  - rewrite Hgx. apply msum_ext. intros c Hc.
    assert (Lc : List.length c = List.length ax) by (rewrite (inr_length _ _ Hc), map_length; reflexivity).
    assert (Lc' : List.length c = List.length ay).
    { rewrite Lc. rewrite <- (map_length (ndimof x)), Hd, map_length. reflexivity. }
    f_equal; unfold nget; f_equal.
    + rewrite Hfx. rewrite <- (scatter_gather (map (pos_of (nnames x)) fx ++ px) (map (assign v ax c) (nnames x))).
      * f_equal. unfold gather. rewrite map_app. fold (gather (map (pos_of (nnames x)) fx) (map (assign v ax c) (nnames x))).
        fold (gather px (map (assign v ax c) (nnames x))). unfold px.
        rewrite !gather_pos by assumption. f_equal.
        -- unfold fx. symmetry. apply map_assign_free.
        -- symmetry. apply map_assign; assumption.
      * rewrite <- Hfx, <- Hlx. apply freeaxes_is_perm; [exact Hpx|]. intros k Hk.
        apply in_map_iff in Hk. destruct Hk as [s [<- Hs]]. apply pos_of_lt. apply Hix. exact Hs.
      * rewrite <- Hfx, map_length, app_length, freeaxes_length.
        -- unfold px. rewrite map_length. rewrite Hlx.
           assert (List.length ax <= List.length (nnames x)) by (apply NoDup_incl_length; assumption). lia.
        -- exact Hpx.
        -- intros k Hk. apply in_map_iff in Hk. destruct Hk as [s [<- Hs]]. rewrite <- Hlx. apply pos_of_lt. apply Hix. exact Hs.
    + rewrite Hfy. rewrite <- (scatter_gather (py ++ map (pos_of (nnames y)) fy) (map (assign v ay c) (nnames y))).
      * f_equal. unfold gather. rewrite map_app. fold (gather (map (pos_of (nnames y)) fy) (map (assign v ay c) (nnames y))).
        fold (gather py (map (assign v ay c) (nnames y))). unfold py.
        rewrite !gather_pos by assumption. f_equal.
        -- symmetry. apply map_assign; assumption.
        -- unfold fy. symmetry. apply map_assign_free.
      * rewrite <- Hfy, <- Hly. apply freeaxes_is_perm'; [exact Hpy|]. intros k Hk.
        apply in_map_iff in Hk. destruct Hk as [s [<- Hs]]. apply pos_of_lt. apply Hiy. exact Hs.
      * rewrite <- Hfy, map_length, app_length, freeaxes_length.
        -- unfold py. rewrite map_length. rewrite Hly.
           assert (List.length ay <= List.length (nnames y)) by (apply NoDup_incl_length; assumption). lia.
        -- exact Hpy.
        -- intros k Hk. apply in_map_iff in Hk. destruct Hk as [s [<- Hs]]. rewrite <- Hly. apply pos_of_lt. apply Hiy. exact Hs.
  - rewrite Hfx. rewrite gather_dims by assumption.
    apply inr_map_iff. intros s Hs. rewrite <- HDx by exact Hs. apply Hv. cbn. apply in_app_iff. left. exact Hs.
  - rewrite Hfy. rewrite gather_dims by assumption.
    apply inr_map_iff. intros s Hs. rewrite <- HDy by exact Hs. apply Hv. cbn. apply in_app_iff. right. exact Hs.
Qed.
Lemma ntensordot_unknown x y axes :
  ~ incl (map fst axes) (nnames x) \/ ~ incl (map snd axes) (nnames y) ->
  ntensordot x y axes = Err ValueError.
Proof.
  intros H. unfold ntensordot. destruct (sincl_dec (map fst axes) (nnames x)) as [Hi|Hi].
  - rewrite (axisposs_ok x _ Hi). cbn [bind]. destruct H as [H|H]; [contradiction|].
    rewrite (axisposs_err y _ H). reflexivity.
  - rewrite (axisposs_err x _ Hi). reflexivity.
Qed.

Lemma ntensordot_mismatch x y axes :
  named_ok x -> named_ok y -> incl (map fst axes) (nnames x) -> incl (map snd axes) (nnames y) ->
  map (ndimof x) (map fst axes) <> map (ndimof y) (map snd axes) ->
  ntensordot x y axes = Err ValueError.
Proof.
  intros Hx Hy Hi Hj Hd. unfold ntensordot.
  rewrite (axisposs_ok x _ Hi), (axisposs_ok y _ Hj). cbn [bind].
  unfold np_tensordot. rewrite !gather_dims by assumption. unfold list_eqb.
  destruct (list_eq_dec Nat.eq_dec _ _) as [E|_]; [contradiction|].
  rewrite andb_false_r. reflexivity.
Qed.

Lemma ntensordot_clash x y axes :
  named_ok x -> named_ok y -> incl (map fst axes) (nnames x) -> incl (map snd axes) (nnames y) ->
  NoDup (map fst axes) -> NoDup (map snd axes) ->
  map (ndimof x) (map fst axes) = map (ndimof y) (map snd axes) ->
  ~ NoDup (filter (fun s => negb (smemb s (map fst axes))) (nnames x) ++
           filter (fun s => negb (smemb s (map snd axes))) (nnames y)) ->
  ntensordot x y axes = Err AssertionError.
Proof.
  intros Hx Hy Hi Hj Hnx Hny Hd Hnd. unfold ntensordot.
  rewrite (axisposs_ok x _ Hi), (axisposs_ok y _ Hj). cbn [bind].
  unfold np_tensordot. rewrite !gather_dims by assumption. rewrite Hd. unfold list_eqb.
  destruct (list_eq_dec Nat.eq_dec _ _) as [_|N]; [|congruence].
  rewrite andb_true_r.
  replace (nodupb _ && nodupb _) with true
    by (symmetry; apply andb_true_iff; split; apply nodupb_iff; apply map_pos_nodup; assumption).
  cbn [praise_unless bind]. apply named_new_error. right. exact Hnd.
Qed.
End Pf.
