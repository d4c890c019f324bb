(** block_diag (extmath.py 46-104) and its agreement with the direct sum of local tensors. *)
From Verif Require Export PfSites.

Section Block.
Context {K : StarRing}.
Add Ring Kr : (k_ring K).

Lemma inr_nth idx sh k : inr idx sh -> k < length idx -> nth k idx 0 < nth k sh 0.
Proof.
  intros H; revert k; induction H as [|i d idx sh Hi H IH]; intros k Hk; [cbn in Hk; lia|].
  destruct k; [exact Hi|]. apply IH. cbn in Hk; lia.
Qed.
Lemma inr_mk idx sh : length idx = length sh -> (forall k, k < length idx -> nth k idx 0 < nth k sh 0) -> inr idx sh.
Proof.
  revert sh; induction idx as [|i idx IH]; intros [|d sh] Hl H; try discriminate; [constructor|].
  constructor; [apply (H 0); cbn; lia|]. apply IH; [cbn in Hl; lia|]. intros k Hk. apply (H (S k)). cbn; lia.
Qed.

(** ** Inverse permutation *)
Lemma argsort_length order : length (argsort_perm order) = length order.
Proof. unfold argsort_perm. rewrite map_length, seq_length. reflexivity. Qed.

Lemma gather_argsort order l : is_perm order -> length l = length order -> gather (argsort_perm order) (gather order l) = l.
Proof.
  intros Hp Hl. apply (nth_ext _ _ 0 0).
  - rewrite gather_length, argsort_length. congruence.
  - intros k Hk. rewrite gather_length, argsort_length in Hk. unfold gather at 1. rewrite (nth_map0 nat _ 0) by (rewrite argsort_length; exact Hk).
    unfold argsort_perm. rewrite (nth_map0 nat _ 0) by (rewrite seq_length; exact Hk). rewrite seq_nth by exact Hk. cbn [Nat.add].
    assert (Hin : In k order) by (apply is_perm_in; assumption).
    unfold gather. rewrite (nth_map0 nat _ 0) by (apply find_pos_lt; exact Hin). rewrite find_pos_nth by exact Hin. reflexivity.
Qed.

Lemma argsort_perm_ok order : is_perm order -> is_perm (argsort_perm order).
Proof.
  intros Hp. unfold is_perm. rewrite argsort_length. apply NoDup_Permutation.
  - assert (ND : NoDup (map (fun k => nth k order 0) (argsort_perm order))).
    { replace (map (fun k => nth k order 0) (argsort_perm order)) with (seq 0 (length order)); [apply seq_NoDup|].
      unfold argsort_perm. rewrite map_map. rewrite <- (map_id (seq 0 (length order))) at 1. apply map_ext_in. intros k Hk. apply in_seq in Hk.
      rewrite find_pos_nth; [reflexivity|]. apply is_perm_in; [exact Hp|lia]. }
    apply NoDup_map_inv in ND. exact ND.
  - apply seq_NoDup.
  - intros k. rewrite in_seq. unfold argsort_perm. rewrite in_map_iff. split.
    + intros [j [<- Hj]]. apply in_seq in Hj. split; [lia|]. apply find_pos_lt. apply is_perm_in; [exact Hp|lia].
    + intros Hk. exists (nth k order 0). rewrite find_pos_nodup; [|apply is_perm_nodup; exact Hp|lia]. split; [reflexivity|].
      apply in_seq. split; [lia|]. apply is_perm_in; [exact Hp|]. apply nth_In. lia.
Qed.

(** ** The accumulation loop *)
(** Start of block [j] along each of the first [n] axes. *)
Fixpoint starts (n : nat) (arrs : list (nd K)) (start : list nat) (j : nat) : list nat :=
  match j, arrs with
  | S j', a :: arrs' => starts n arrs' (add_lists start (firstn n (shp a))) j'
  | _, _ => start
  end.

Lemma shp_block_loop n (arrs : list (nd K)) : forall rs start, shp (block_loop n rs arrs start) = shp rs.
Proof. induction arrs as [|a arrs IH]; intros rs start; [reflexivity|]. cbn [block_loop]. rewrite IH. reflexivity. Qed.
Lemma wf_block_loop n (arrs : list (nd K)) : forall rs start, ndwf rs -> ndwf (block_loop n rs arrs start).
Proof. induction arrs as [|a arrs IH]; intros rs start H; [exact H|]. cbn [block_loop]. apply IH. apply wf_tab. Qed.

Lemma block_loop_get n (arrs : list (nd K)) : forall rs start h f, length h = n -> inr (h ++ f) (shp rs) ->
  get (block_loop n rs arrs start) (h ++ f) =
  (get rs (h ++ f) + bigsum (length arrs) (fun j =>
     if in_block (starts n arrs start j) (firstn n (shp (nth j arrs dummy))) h
     then get (nth j arrs dummy) (sub_lists h (starts n arrs start j) ++ f) else k0))%K.
Proof.
  induction arrs as [|a arrs IH]; intros rs start h f Hl Hi; [cbn; ring|]. cbn [block_loop].
  rewrite IH by (try exact Hl; exact Hi). unfold block_add at 1. rewrite get_tab by exact Hi. cbn [length].
  rewrite bigsum_shift. cbn [starts nth].   rewrite firstn_app, skipn_app, Hl, Nat.sub_diag, (firstn_all2 h), (skipn_all2 h) by lia. cbn [firstn skipn app]. rewrite app_nil_r.
  destruct (in_block start (firstn n (shp a)) h); ring.
Qed.

Lemma add_lists_length a b : length (add_lists a b) = Nat.min (length a) (length b).
Proof. revert b; induction a as [|x a IH]; intros [|y b]; cbn; auto. Qed.
Lemma nth_add_lists a b k : k < length a -> k < length b -> nth k (add_lists a b) 0 = nth k a 0 + nth k b 0.
Proof. revert b k; induction a as [|x a IH]; intros [|y b] [|k] Ha Hb; cbn in *; try lia. apply IH; lia. Qed.

Lemma nth_starts n (arrs : list (nd K)) : forall start j k, length start = n -> (forall a, In a arrs -> n <= ndim a) -> k < n -> j <= length arrs ->
  length (starts n arrs start j) = n /\ nth k (starts n arrs start j) 0 = nth k start 0 + off (map (fun a => nth k (shp a) 0) arrs) j.
Proof.
  induction arrs as [|a arrs IH]; intros start j k Hl Ha Hk Hj.
  - destruct j; [|cbn in Hj; lia]. cbn. split; [exact Hl|lia].
  - destruct j as [|j]; [cbn [starts]; split; [exact Hl|rewrite off_0; lia]|]. cbn [starts map]. rewrite off_S.
    assert (La : n <= ndim a) by (apply Ha; left; reflexivity). unfold ndim in La.
    assert (Lf : length (firstn n (shp a)) = n) by (apply firstn_length_le; exact La).
    destruct (IH (add_lists start (firstn n (shp a))) j k) as [I1 I2]; auto.
    + rewrite add_lists_length. lia.
    + intros b Hb. apply Ha. right; exact Hb.
    + cbn in Hj; lia.
    + split; [exact I1|]. rewrite I2, nth_add_lists by lia.
      replace (nth k (firstn n (shp a)) 0) with (nth k (shp a) 0); [lia|].
      rewrite <- (firstn_skipn n (shp a)) at 1. apply app_nth1. lia.
Qed.

Lemma in_block_iff start shape idx : length shape = length start -> length idx = length start ->
  (in_block start shape idx = true <-> forall k, k < length start -> nth k start 0 <= nth k idx 0 < nth k start 0 + nth k shape 0).
Proof.
  revert shape idx; induction start as [|s start IH]; intros [|d shape] [|i idx] H1 H2; try discriminate.
  - split; [intros _ k Hk; cbn in Hk; lia|reflexivity].
  - unfold in_block in *. cbn [combine forallb fst snd]. rewrite !andb_true_iff, Nat.leb_le, Nat.ltb_lt, IH by (cbn in *; lia).
    split.
    + intros [[A B] C] [|k] Hk; [exact (conj A B)|]. apply C. cbn in Hk; lia.
    + intros H. split; [apply (H 0); cbn; lia|]. intros k Hk. apply (H (S k)). cbn; lia.
Qed.

Lemma off_mono ds i j : i <= j -> off ds i <= off ds j.
Proof.
  revert i j; induction ds as [|d ds IH]; intros i j H.
  - unfold off. rewrite !firstn_nil. apply Nat.le_refl.
  - destruct i; [rewrite off_0; lia|]. destruct j; [lia|]. rewrite !off_S. specialize (IH i j). lia.
Qed.
Lemma off_next ds j : j < length ds -> off ds (S j) = off ds j + nth j ds 0.
Proof.
  revert j; induction ds as [|d ds IH]; intros j H; [cbn in H; lia|]. destruct j; [unfold off; cbn; lia|].
  rewrite off_S, IH by (cbn in H; lia). rewrite off_S. cbn [nth]. lia.
Qed.
(** Different blocks do not overlap. *)
Lemma off_disjoint ds i j a : i < length ds -> j < length ds -> a < nth j ds 0 ->
  off ds i <= off ds j + a < off ds i + nth i ds 0 -> i = j.
Proof.
  intros Hi Hj Ha H. rewrite <- off_next in H by exact Hi. assert (off ds (S j) = off ds j + nth j ds 0) by (apply off_next; exact Hj).
  destruct (Nat.lt_trichotomy i j) as [L|[E|L]]; [|exact E|].
  - pose proof (off_mono ds (S i) j). lia.
  - pose proof (off_mono ds (S j) i). lia.
Qed.

(** ** block_diag *)
(** Position of entry [idx] of the [j]-th summand: shifted along the block axes by
    the dimensions of the summands before it. *)
Definition shift_block (ss : list (nd K)) (axes : list nat) (j : nat) (idx : list nat) : list nat :=
  map (fun k => nth k idx 0 + (if memb k axes then off (map (fun s => nth k (shp s) 0) ss) j else 0)) (seq 0 (length idx)).

Definition block_shape (ss : list (nd K)) (axes : list nat) : list nat :=
  map (fun k => if memb k axes then list_sum (map (fun s => nth k (shp s) 0) ss) else nth k (shp (hd dummy ss)) 0)
      (seq 0 (ndim (hd dummy ss))).

Lemma memb_In k l : memb k l = true <-> In k l.
Proof. unfold memb. rewrite existsb_exists. split; [intros [y [H E]]; apply Nat.eqb_eq in E; subst; exact H|intros H; exists k; split; [exact H|apply Nat.eqb_refl]]. Qed.

Lemma in_freeaxes n axes k : In k (freeaxes n axes) <-> k < n /\ ~ In k axes.
Proof.
  unfold freeaxes. rewrite filter_In, in_seq, negb_true_iff, <- not_true_iff_false, memb_In. intuition lia.
Qed.

Lemma nth_map_seq (f : nat -> nat) n k : k < n -> nth k (map f (seq 0 n)) 0 = f k.
Proof. intros H. rewrite (nth_map0 nat f 0) by (rewrite seq_length; exact H). rewrite seq_nth by exact H. reflexivity. Qed.

Lemma list_sum_cons d ds : list_sum (d :: ds) = d + list_sum ds.
Proof. reflexivity. Qed.

Lemma total_nth n (arrs : list (nd K)) k : (forall a, In a arrs -> n <= ndim a) -> k < n ->
  length (fold_right add_lists (repeat 0 n) (map (fun a => firstn n (shp a)) arrs)) = n /\
  nth k (fold_right add_lists (repeat 0 n) (map (fun a => firstn n (shp a)) arrs)) 0 = list_sum (map (fun a => nth k (shp a) 0) arrs).
Proof.
  intros Ha Hk. induction arrs as [|a arrs IH].
  - cbn. rewrite repeat_length. split; [reflexivity|apply nth_repeat].
  - destruct IH as [I1 I2]; [intros b Hb; apply Ha; right; exact Hb|]. cbn [map fold_right]. rewrite list_sum_cons.
    assert (La : n <= ndim a) by (apply Ha; left; reflexivity). unfold ndim in La.
    assert (Lf : length (firstn n (shp a)) = n) by (apply firstn_length_le; exact La).
    split; [rewrite add_lists_length; lia|]. rewrite nth_add_lists by lia. rewrite I2. f_equal.
    rewrite <- (firstn_skipn n (shp a)) at 2. symmetry. apply app_nth1. lia.
Qed.

Theorem block_diag_spec (ss : list (nd K)) (axes : list nat) n0 :
  ss <> [] -> axes <> [] -> NoDup axes -> (forall k, In k axes -> k < n0) ->
  (forall s, In s ss -> ndwf s /\ ndim s = n0 /\ forall k, k < n0 -> ~ In k axes -> nth k (shp s) 0 = nth k (shp (hd dummy ss)) 0) ->
  exists T, block_diag_py ss axes = Ok T /\ ndwf T /\ shp T = block_shape ss axes /\
    (forall j idx, j < length ss -> inr idx (shp (nth j ss dummy)) -> get T (shift_block ss axes j idx) = get (nth j ss dummy) idx) /\
    (forall idx, inr idx (shp T) ->
       (forall j idx0, j < length ss -> inr idx0 (shp (nth j ss dummy)) -> idx <> shift_block ss axes j idx0) -> get T idx = k0).
Proof.
  intros Hne Hax Hnd Hlt HS. destruct ss as [|s0 ss0]; [congruence|]. cbn [hd] in *. set (ss := s0 :: ss0) in *.
  assert (N0 : ndim s0 = n0) by (apply HS; left; reflexivity).
  set (free := freeaxes n0 axes). set (order := axes ++ free). set (n := length axes).
  assert (Pord : is_perm order) by (apply freeaxes_is_perm'; assumption).
  assert (Lord : length order = n0).
  { unfold order, free. rewrite app_length. pose proof (freeaxes_total n0 axes Hnd Hlt). lia. }
  assert (Lfree : length free = n0 - n) by (unfold order in Lord; rewrite app_length in Lord; unfold n; lia).
  set (arrs := map (fun a => transpose a order) ss).
  set (total := fold_right add_lists (repeat 0 n) (map (fun a => firstn n (shp a)) arrs)).
  set (rest := gather free (shp s0)).
  set (rs := block_loop n (zeros (total ++ rest)) arrs (repeat 0 n)).
  assert (Sk : forall s, In s ss -> shp (transpose s order) = gather axes (shp s) ++ rest).
  { intros s Hs. rewrite shp_transpose. unfold order. rewrite gather_app. f_equal. unfold rest, gather. apply map_ext_in. intros k Hk.
    apply in_freeaxes in Hk. destruct (HS s Hs) as [_ [_ H]]. apply H; tauto. }
  assert (Na : forall a, In a arrs -> n <= ndim a).
  { intros a Ha. apply in_map_iff in Ha. destruct Ha as [s [<- Hs]]. unfold ndim. rewrite Sk, app_length, gather_length by exact Hs. unfold n. lia. }
  assert (E1 : block_diag_py ss axes = Ok (transpose rs (argsort_perm order))).
  { unfold block_diag_py, block_rest. unfold ss at 1. cbv beta iota zeta. rewrite N0. fold free.
    replace (forallb (fun a => ndim a =? n0) ss) with true by (symmetry; apply forallb_forall; intros s Hs; apply Nat.eqb_eq; apply (HS s Hs)).
    replace (forallb (fun a => list_eqb (gather free (shp a)) (gather free (shp s0))) ss) with true.
    - cbn [praise_unless]. f_equal. unfold block_diag. unfold ss at 1. cbv beta iota zeta. rewrite N0. fold free. fold order. fold n. fold arrs. fold total.
      rewrite Sk by (left; reflexivity). rewrite skipn_app, gather_length. rewrite skipn_all2 by (rewrite gather_length; apply Nat.le_refl).
      fold n. rewrite Nat.sub_diag. reflexivity.
    - symmetry. apply forallb_forall. intros s Hs. destruct (HS s Hs) as [_ [H1 H2]].
      replace (gather free (shp s)) with (gather free (shp s0)); [apply list_eqb_refl|]. unfold gather. apply map_ext_in. intros k Hk. apply in_freeaxes in Hk. symmetry. apply H2; tauto. }
  assert (Ltot : length total = n).
  { unfold total. destruct axes as [|ax0 axes']; [congruence|]. apply (total_nth n arrs 0 Na). unfold n; cbn; lia. }
  assert (Srs : shp rs = total ++ rest) by (unfold rs; rewrite shp_block_loop; reflexivity).
  assert (Lr : length (total ++ rest) = n0) by (rewrite app_length, Ltot; unfold rest; rewrite gather_length; unfold n, order in *; rewrite app_length in Lord; lia).
  assert (Dcol : forall k, k < n -> map (fun a => nth k (shp a) 0) arrs = map (fun s => nth (nth k axes 0) (shp s) 0) ss).
  { intros k Hk. unfold arrs. rewrite map_map. apply map_ext_in. intros s Hs. rewrite Sk by exact Hs. rewrite app_nth1 by (rewrite gather_length; exact Hk).
    unfold gather. apply (nth_map0 nat (fun k0 => nth k0 (shp s) 0) 0). exact Hk. }
  assert (BS : forall k, k < n0 -> nth k (block_shape ss axes) 0 =
    if memb k axes then list_sum (map (fun s => nth k (shp s) 0) ss) else nth k (shp s0) 0).
  { intros k Hk. unfold block_shape. change (hd dummy ss) with s0. rewrite N0. apply (nth_map_seq (fun k => if memb k axes then _ else _)). exact Hk. }
  assert (Gsh : gather order (block_shape ss axes) = total ++ rest).
  { unfold order. rewrite gather_app. f_equal.
    - apply (nth_ext _ _ 0 0); [rewrite gather_length; symmetry; exact Ltot|]. intros k Hk. rewrite gather_length in Hk.
      unfold gather. rewrite (nth_map0 nat _ 0) by exact Hk. destruct (total_nth n arrs k Na Hk) as [_ T2]. fold total in T2. rewrite T2, Dcol by exact Hk.
      rewrite BS by (apply Hlt; apply nth_In; exact Hk).
      replace (memb (nth k axes 0) axes) with true by (symmetry; apply memb_In; apply nth_In; exact Hk). reflexivity.
    - unfold rest, gather. apply map_ext_in. intros k Hk. apply in_freeaxes in Hk. rewrite BS by tauto.
      replace (memb k axes) with false; [reflexivity|]. symmetry. apply not_true_iff_false. rewrite memb_In. tauto. }
  assert (Lsh : length (block_shape ss axes) = n0) by (unfold block_shape, ss; cbn [hd]; rewrite map_length, seq_length; exact N0).
  exists (transpose rs (argsort_perm order)). split; [exact E1|]. split; [apply wf_transpose|].
  assert (ST : shp (transpose rs (argsort_perm order)) = block_shape ss axes).
  { rewrite shp_transpose, Srs, <- Gsh. apply gather_argsort; [exact Pord|congruence]. }
  split; [exact ST|].
  (* value at a valid index *)
  assert (VAL : forall idx, inr idx (block_shape ss axes) ->
    get (transpose rs (argsort_perm order)) idx =
    bigsum (length ss) (fun j => if in_block (starts n arrs (repeat 0 n) j) (firstn n (shp (nth j arrs dummy))) (gather axes idx)
                                 then get (nth j arrs dummy) (sub_lists (gather axes idx) (starts n arrs (repeat 0 n) j) ++ gather free idx) else k0)).
  { intros idx Hi. assert (Li := inr_length _ _ Hi).
    rewrite <- (gather_argsort order idx Pord) at 1 by congruence. rewrite get_transpose_gather.
    - unfold order at 1. rewrite gather_app. unfold rs. rewrite block_loop_get.
      + rewrite get_zeros. unfold arrs at 1. rewrite map_length. ring.
      + apply gather_length.
      + cbn [zeros]. unfold zeros. rewrite shp_tab, <- gather_app. fold order. rewrite <- Gsh. apply gather_inr; [exact Hi|]. intros k Hk. rewrite Lsh. apply is_perm_in in Hk; [lia|exact Pord].
    - apply argsort_perm_ok; exact Pord.
    - rewrite argsort_length. unfold ndim. rewrite Srs. lia.
    - rewrite Srs, <- Gsh. apply gather_inr; [exact Hi|]. intros k Hk. rewrite Lsh. apply is_perm_in in Hk; [lia|exact Pord]. }
  assert (NTH : forall j, j < length ss -> nth j arrs dummy = transpose (nth j ss dummy) order).
  { intros j Hj. unfold arrs. rewrite (nth_indep _ dummy (transpose dummy order)) by (rewrite map_length; exact Hj). apply (map_nth (fun a => transpose a order)). }
  assert (INB : forall j h, j < length ss -> length h = n ->
    (in_block (starts n arrs (repeat 0 n) j) (firstn n (shp (nth j arrs dummy))) h = true <->
     forall k, k < n -> off (map (fun s => nth (nth k axes 0) (shp s) 0) ss) j <= nth k h 0 <
                        off (map (fun s => nth (nth k axes 0) (shp s) 0) ss) j + nth (nth k axes 0) (shp (nth j ss dummy)) 0)).
  { intros j h Hj Hh. assert (Hn : 0 < n) by (destruct axes; [congruence|unfold n; cbn; lia]).
    assert (Lj : j <= length arrs) by (unfold arrs; rewrite map_length; lia).
    destruct (nth_starts n arrs (repeat 0 n) j 0 (repeat_length _ _) Na Hn Lj) as [LS _].
    rewrite NTH, Sk by (try exact Hj; apply nth_In; exact Hj). rewrite firstn_app, (firstn_all2 (gather axes _)), gather_length by (rewrite gather_length; apply Nat.le_refl).
    fold n. rewrite Nat.sub_diag. cbn [firstn]. rewrite app_nil_r.
    rewrite in_block_iff by (rewrite ?gather_length, LS; first [reflexivity|exact Hh]). rewrite LS. split; intros H k Hk; specialize (H k Hk);
      destruct (nth_starts n arrs (repeat 0 n) j k (repeat_length _ _) Na Hk Lj) as [_ NS]; rewrite NS, nth_repeat, Dcol in * by exact Hk;
      unfold gather in *; rewrite (nth_map0 nat (fun k0 => nth k0 (shp (nth j ss dummy)) 0) 0) in * by exact Hk; exact H. }
  assert (GS : forall j idx, j < length ss -> length idx = n0 -> forall k, k < n ->
    nth k (gather axes (shift_block ss axes j idx)) 0 = nth (nth k axes 0) idx 0 + off (map (fun s => nth (nth k axes 0) (shp s) 0) ss) j).
  { intros j idx Hj Li k Hk. unfold gather. rewrite (nth_map0 nat _ 0) by exact Hk. unfold shift_block. rewrite nth_map_seq by (rewrite Li; apply Hlt; apply nth_In; exact Hk).
    replace (memb (nth k axes 0) axes) with true by (symmetry; apply memb_In; apply nth_In; exact Hk). reflexivity. }
  split.
  - intros j idx Hj Hi. assert (Li := inr_length _ _ Hi). destruct (HS (nth j ss dummy) (nth_In _ _ Hj)) as [Wj [Dj Rj]].
    unfold ndim in Dj. rewrite Dj in Li. assert (Lsi : length (shift_block ss axes j idx) = n0) by (unfold shift_block; rewrite map_length, seq_length; exact Li).
    assert (Bnd : forall k, k < n0 -> nth k idx 0 < nth k (shp (nth j ss dummy)) 0).
    { intros k Hk. apply inr_nth; [exact Hi|lia]. }
    assert (Hsi : inr (shift_block ss axes j idx) (block_shape ss axes)).
    { apply inr_mk; [congruence|]. intros k Hk. rewrite Lsi in Hk. rewrite BS by exact Hk. unfold shift_block.
      rewrite nth_map_seq by lia. destruct (memb k axes) eqn:Em.
      - rewrite Nat.add_comm. apply off_lt; [rewrite map_length; exact Hj|]. rewrite (nth_map0 _ _ dummy) by exact Hj. apply Bnd; exact Hk.
      - rewrite Nat.add_0_r. rewrite <- Rj; [apply Bnd; exact Hk|exact Hk|]. rewrite <- memb_In, Em. discriminate. }
    rewrite VAL by exact Hsi. rewrite (bigsum_single _ j).
    + replace (in_block _ _ _) with true.
      2:{ symmetry. apply INB; [exact Hj|apply gather_length|]. intros k Hk. rewrite GS by assumption.
          pose proof (Bnd (nth k axes 0) ltac:(apply Hlt; apply nth_In; exact Hk)). lia. }
      rewrite NTH by exact Hj. 
      replace (sub_lists (gather axes (shift_block ss axes j idx)) (starts n arrs (repeat 0 n) j) ++ gather free (shift_block ss axes j idx)) with (gather order idx).
      * apply get_transpose_gather; [exact Pord|unfold ndim; lia|exact Hi].
      * unfold order. rewrite gather_app. f_equal.
        -- assert (Hn : 0 < n) by (destruct axes; [congruence|unfold n; cbn; lia]).
           assert (Lj : j <= length arrs) by (unfold arrs; rewrite map_length; lia).
           destruct (nth_starts n arrs (repeat 0 n) j 0 (repeat_length _ _) Na Hn Lj) as [LS _].
           apply (nth_ext _ _ 0 0); [unfold sub_lists; rewrite map_length, combine_length, !gather_length, LS; unfold n; lia|].
           intros k Hk. rewrite gather_length in Hk. unfold sub_lists. rewrite (nth_map0 _ _ (0, 0)) by (rewrite combine_length, gather_length, LS; unfold n; lia).
           rewrite combine_nth by (rewrite gather_length, LS; reflexivity). cbn [fst snd]. rewrite GS by assumption.
           destruct (nth_starts n arrs (repeat 0 n) j k (repeat_length _ _) Na Hk Lj) as [_ NS]. rewrite NS, nth_repeat, Dcol by exact Hk.
           unfold gather. rewrite (nth_map0 nat _ 0) by exact Hk. lia.
        -- unfold gather. apply map_ext_in. intros k Hk. apply in_freeaxes in Hk. unfold shift_block. rewrite nth_map_seq by lia.
           replace (memb k axes) with false; [lia|]. symmetry. apply not_true_iff_false. rewrite memb_In. tauto.
    + exact Hj.
    + intros i Hil Hij. destruct (in_block _ _ _) eqn:Eb; [|reflexivity]. exfalso. apply Hij.
      pose proof (proj1 (INB i _ Hil (gather_length _ _)) Eb) as Eb'. clear Eb; rename Eb' into Eb. destruct axes as [|ax0 axes']; [congruence|]. specialize (Eb 0 ltac:(unfold n; cbn; lia)).
      rewrite GS in Eb by (auto; unfold n; cbn; lia). cbn [nth] in Eb. rewrite Nat.add_comm in Eb.
      apply (off_disjoint (map (fun s => nth ax0 (shp s) 0) ss) i j (nth ax0 idx 0)); rewrite ?map_length; auto.
      * rewrite (nth_map0 _ _ dummy) by exact Hj. apply Bnd. apply Hlt. left; reflexivity.
      * rewrite (nth_map0 _ _ dummy) by exact Hil. exact Eb.
  - intros idx Hi Hno. rewrite ST in Hi. rewrite VAL by exact Hi. apply bigsum_zero. intros j Hj. destruct (in_block _ _ _) eqn:Eb; [|reflexivity]. exfalso.
    pose proof (proj1 (INB j _ Hj (gather_length _ _)) Eb) as Eb'. clear Eb; rename Eb' into Eb. assert (Li := inr_length _ _ Hi). rewrite Lsh in Li.
    destruct (HS (nth j ss dummy) (nth_In _ _ Hj)) as [Wj [Dj Rj]]. unfold ndim in Dj.
    set (idx0 := map (fun k => nth k idx 0 - (if memb k axes then off (map (fun s => nth k (shp s) 0) ss) j else 0)) (seq 0 n0)).
    assert (AX : forall k, In k axes -> off (map (fun s => nth k (shp s) 0) ss) j <= nth k idx 0 < off (map (fun s => nth k (shp s) 0) ss) j + nth k (shp (nth j ss dummy)) 0).
    { intros k Hk. destruct (In_nth axes k 0 Hk) as [m [Hm <-]]. specialize (Eb m Hm). unfold gather in Eb. rewrite (nth_map0 nat (fun k0 => nth k0 idx 0) 0) in Eb by exact Hm. exact Eb. }
    apply (Hno j idx0 Hj).
    + apply inr_mk; [unfold idx0; rewrite map_length, seq_length; lia|]. intros k Hk. unfold idx0 in Hk. rewrite map_length, seq_length in Hk.
      unfold idx0. rewrite nth_map_seq by exact Hk. destruct (memb k axes) eqn:Em.
      * apply memb_In in Em. specialize (AX k Em). lia.
      * assert (B := inr_nth _ _ k Hi). specialize (B ltac:(lia)). rewrite BS, Em in B by exact Hk.
        rewrite Rj; [lia|exact Hk|]. rewrite <- memb_In, Em. discriminate.
    + unfold shift_block, idx0. rewrite map_length, seq_length. apply (nth_ext _ _ 0 0); [rewrite map_length, seq_length; exact Li|].
      intros k Hk. rewrite !nth_map_seq by lia. destruct (memb k axes) eqn:Em; [|lia]. apply memb_In in Em. specialize (AX k Em). lia.
Qed.

(** ** Agreement with the direct sum of local tensors *)
Lemma nth_mid (p : list nat) l r k : nth (S k) (l :: p ++ [r]) 0 = nth k (p ++ [r]) 0.
Proof. reflexivity. Qed.

Lemma shift_virt (ts : list (nd K)) p j a i b : (forall t, In t ts -> shp t = ldim t :: p ++ [rdim t]) -> length i = length p ->
  shift_block ts [0; S (length p)] j (a :: i ++ [b]) = (off (map ldim ts) j + a) :: i ++ [off (map rdim ts) j + b].
Proof.
  intros HS Li. unfold shift_block. apply (nth_ext _ _ 0 0).
  - rewrite map_length, seq_length. cbn. rewrite !app_length. reflexivity.
  - intros k Hk. rewrite map_length, seq_length in Hk. rewrite nth_map_seq by exact Hk.
    assert (Lk : length (a :: i ++ [b]) = S (S (length p))) by (cbn; rewrite app_length; cbn; lia). rewrite Lk in Hk.
    destruct k as [|k].
    + cbn [memb existsb nth Nat.eqb orb]. rewrite Nat.add_comm. f_equal. f_equal. apply map_ext_in. intros t Ht. rewrite (HS t Ht). reflexivity.
    + destruct (Nat.eq_dec k (length p)) as [->|Hne].
      * cbn [memb existsb Nat.eqb]. rewrite Nat.eqb_refl, orb_true_l. cbn [nth orb]. rewrite !nth_snoc by exact Li. rewrite Nat.add_comm. f_equal. f_equal.
        apply map_ext_in. intros t Ht. rewrite (HS t Ht). cbn [nth]. apply nth_snoc. reflexivity.
      * replace (memb (S k) [0; S (length p)]) with false.
        2:{ symmetry. apply not_true_iff_false. rewrite memb_In. cbn. lia. }
        cbn [nth]. rewrite !app_nth1 by lia. lia.
Qed.

Theorem block_diag_local_add p (ts : list (nd K)) : ts <> [] -> fam p ts ->
  exists T, local_add ts = Ok T /\ block_diag_py ts [0; ndim (hd dummy ts) - 1] = Ok T.
Proof.
  intros Hne HF. destruct (local_add_spec p ts Hne HF) as [T [E [OT [LT [RT [PT ET]]]]]].
  assert (HS : forall t, In t ts -> shp t = ldim t :: p ++ [rdim t]).
  { intros t Ht. unfold fam in HF. rewrite Forall_forall in HF. destruct (HF t Ht) as [H1 H2]. rewrite (lt_ok_shp t H1), H2. reflexivity. }
  assert (H0 : In (hd dummy ts) ts) by (destruct ts; [congruence|left; reflexivity]).
  assert (N0 : forall t, In t ts -> ndim t = S (S (length p))).
  { intros t Ht. unfold ndim. rewrite (HS t Ht). cbn. rewrite app_length. cbn. lia. }
  replace (ndim (hd dummy ts) - 1) with (S (length p)) by (rewrite (N0 _ H0); lia).
  exists T. split; [exact E|].
  destruct (block_diag_spec ts [0; S (length p)] (S (S (length p)))) as [T' [E' [W' [S' [V1 V2]]]]]; auto.
  - discriminate.
  - constructor; [cbn; lia|]. constructor; [cbn; tauto|constructor].
  - intros k [<-|[<-|[]]]; lia.
  - intros t Ht. split; [|split; [apply N0; exact Ht|]].
    + unfold fam in HF. rewrite Forall_forall in HF. apply (HF t Ht).
    + intros k Hk Hn. rewrite (HS t Ht), (HS _ H0). cbn in Hn. destruct k; [lia|]. cbn [nth]. rewrite !app_nth1 by lia. reflexivity.
  - rewrite E'. f_equal.
    assert (S2 : shp T' = list_sum (map ldim ts) :: p ++ [list_sum (map rdim ts)]).
    { rewrite S'. unfold block_shape. rewrite (N0 _ H0). apply (nth_ext _ _ 0 0); [rewrite map_length, seq_length; cbn; rewrite app_length; cbn; lia|].
      intros k Hk. rewrite map_length, seq_length in Hk. rewrite nth_map_seq by exact Hk.
      destruct k as [|k].
      - cbn [memb existsb Nat.eqb orb nth]. f_equal. apply map_ext_in. intros t Ht. rewrite (HS t Ht). reflexivity.
      - destruct (Nat.eq_dec k (length p)) as [->|Hne'].
        + cbn [memb existsb Nat.eqb]. rewrite Nat.eqb_refl, orb_true_l. cbn [nth orb]. rewrite !nth_snoc by reflexivity. f_equal.
          apply map_ext_in. intros t Ht. rewrite (HS t Ht). cbn [nth]. apply nth_snoc. reflexivity.
        + replace (memb (S k) [0; S (length p)]) with false.
          2:{ symmetry. apply not_true_iff_false. rewrite memb_In. cbn. lia. }
          rewrite (HS _ H0). cbn [nth]. rewrite !app_nth1 by lia. reflexivity. }
    assert (O' : lt_ok T') by (eapply lt_ok_mk; [exact W'|exact S2]).
    apply lt_eq; auto.
    + rewrite LT. eapply ldim_mk; exact S2.
    + rewrite PT. eapply pdims_mk; exact S2.
    + rewrite RT. eapply rdim_mk; exact S2.
    + intros a i b Ha Hi Hb. rewrite (ldim_mk _ _ _ S2) in Ha. rewrite (pdims_mk _ _ _ _ S2) in Hi. rewrite (rdim_mk _ _ _ _ S2) in Hb.
      destruct (off_split (map ldim ts) a Ha) as [j [a' [Hj [Ha' ->]]]]. destruct (off_split (map rdim ts) b Hb) as [k [b' [Hk [Hb' ->]]]].
      rewrite map_length in Hj, Hk. rewrite (map_nth_lt _ _ ldim ts j dummy) in Ha' by exact Hj. rewrite (map_nth_lt _ _ rdim ts k dummy) in Hb' by exact Hk.
      rewrite ET by assumption. assert (Li := inr_length _ _ Hi).
      destruct (Nat.eqb_spec j k) as [<-|Hjk].
      * unfold ent. rewrite <- (shift_virt ts p j a' i b' HS Li). apply V1; [exact Hj|]. rewrite (HS _ (nth_In _ _ Hj)).
        apply inr_cons; [exact Ha'|]. apply inr_app; [exact Hi|]. apply inr_single; exact Hb'.
      * unfold ent. apply V2.
        -- rewrite S2. apply inr_cons; [exact Ha|]. apply inr_app; [exact Hi|]. apply inr_single; exact Hb.
        -- intros m idx0 Hm Hi0 Eq. rewrite (HS _ (nth_In _ _ Hm)) in Hi0. inversion Hi0 as [|a0 ? r0 ? Ha0 Hr0 Z1 Z2]; subst idx0.
           destruct (inr_app_inv _ _ _ Hr0) as [i0 [b0 [-> [Hi0' Hb0]]]]. destruct (inr_single_inv _ _ Hb0) as [b1 [-> Hb1]].
           rewrite (shift_virt ts p m a0 i0 b1 HS (inr_length _ _ Hi0')) in Eq. injection Eq as Q1 Q2. apply app_inj_tail in Q2. destruct Q2 as [_ Q2].
           apply Hjk. transitivity m.
           ++ symmetry. apply (off_disjoint (map ldim ts) m j a'); rewrite ?map_length; auto.
              ** rewrite (map_nth_lt _ _ ldim ts j dummy) by exact Hj. exact Ha'.
              ** rewrite (map_nth_lt _ _ ldim ts m dummy) by exact Hm. lia.
           ++ apply (off_disjoint (map rdim ts) m k b'); rewrite ?map_length; auto.
              ** rewrite (map_nth_lt _ _ rdim ts k dummy) by exact Hk. exact Hb'.
              ** rewrite (map_nth_lt _ _ rdim ts m dummy) by exact Hm. lia.
Qed.
End Block.
