(** Property theorems: index orders, inserting sites, embedding, sums of local terms. *)
From Verif Require Import Examples.

Ltac shape_rw := match goal with E : mshape ?z = _ |- valid_idx _ (mshape ?z) => rewrite E end.

(** C03: global and local order.  Axis [i] of leg group [j] and axis [j] of site [i]
    trade places; the skipped axes on both sides stay; the two functions undo each other. *)
Theorem C03_global_to_local (K : StarRing) (a : nd K) s p left right : ndwf a -> 0 < s -> ndim a = left + s * p + right ->
  exists b, global_to_local a s left right = Ok b /\ ndwf b /\ ndim b = ndim a /\
    local_to_global b s left right = Ok a /\
    (forall idx, inr idx (shp a) -> exists idx', inr idx' (shp b) /\ get b idx' = get a idx /\
       (forall k, k < left -> nth k idx' 0 = nth k idx 0) /\
       (forall i j, i < s -> j < p -> nth (left + i * p + j) idx' 0 = nth (left + j * s + i) idx 0) /\
       (forall k, k < right -> nth (left + s * p + k) idx' 0 = nth (left + s * p + k) idx 0)).
Proof. exact (global_to_local_spec a s p left right). Qed.
Print Assumptions C03_global_to_local.
Theorem C03_local_to_global (K : StarRing) (a : nd K) s p left right : ndwf a -> 0 < s -> ndim a = left + s * p + right ->
  exists b, local_to_global a s left right = Ok b /\ ndwf b /\ ndim b = ndim a /\
    global_to_local b s left right = Ok a /\
    (forall idx, inr idx (shp a) -> exists idx', inr idx' (shp b) /\ get b idx' = get a idx /\
       (forall k, k < left -> nth k idx' 0 = nth k idx 0) /\
       (forall i j, i < s -> j < p -> nth (left + j * s + i) idx' 0 = nth (left + i * p + j) idx 0) /\
       (forall k, k < right -> nth (left + s * p + k) idx' 0 = nth (left + s * p + k) idx 0)).
Proof. exact (local_to_global_spec a s p left right). Qed.
Print Assumptions C03_local_to_global.
Theorem C03_order_error (K : StarRing) (a : nd K) s left right : 0 < s -> (ndim a - (left + right)) mod s <> 0 ->
  global_to_local a s left right = Err AssertionError /\ local_to_global a s left right = Err AssertionError.
Proof. exact (global_to_local_error a s left right). Qed.
Print Assumptions C03_order_error.
Example C03_ex : match global_to_local (mk [1;2;3;1;2;1] (map gi (map Z.of_nat (seq 0 12)))) 3 0 0 with
  | Ok b => shp b = [1;1;2;2;3;1] /\ dat b = map gi [0;2;4;1;3;5;6;8;10;7;9;11]%Z | Err _ => False end.
Proof. vm_compute. auto. Qed.

(** C31: inject.  [tens] lists the tensors inserted at each of the positions [ps];
    [interleave (cuts 0 ps l) ins] is [l] with [ins] inserted at the positions. *)
Theorem C31_inject (K : StarRing) (x : ltens K) (ps : list nat) items tens :
  mpa_ok x -> positions ps (llen x) -> Forall3 (injected x) ps items tens ->
  exists z, inject x (map Z.of_nat ps) items = Ok z /\ mpa_ok z /\
    mshape z = interleave (cuts 0 ps (mshape x)) (map (map shp) tens) /\
    lcan z = 0%Z /\ rcan z = Z.of_nat (llen z) /\
    forall is jss, valid_idx is (mshape x) -> Forall2 valid_idx jss (map (map shp) tens) ->
      entry z (interleave (cuts 0 ps is) jss) =
      (entry x is * kprod (zip2 (fun ts js => kprod (zip2 get ts js)) tens jss))%K.
Proof.
  intros Hx Hp HF. pose proof (inject_spec x ps items tens Hx Hp HF) as H. split_all H. intros is jss Hi Hj.
  rewrite !entry_amp; auto. shape_rw. apply valid_interleave; [apply valid_cuts; exact Hi|exact Hj].
Qed.
Print Assumptions C31_inject.
Theorem C31_inject_unordered (K : StarRing) (x : ltens K) (ps : list Z) items :
  length ps = length items -> adjacent_lt ps = false -> inject x ps items = Err AssertionError.
Proof. exact (inject_unordered x ps items). Qed.
Print Assumptions C31_inject_unordered.
Example C31_ex : positions [0; 2; 3] (llen ex_s) /\
  Forall3 (injected ex_s) [0; 2; 3] [InjRep 1 None; InjMany [Some (mk [2] [g 0 1; g 1 0]); None]; InjRep 2 (Some (mk [] [g 2 0]))]
    [[eye 2]; [mk [2] [g 0 1; g 1 0]; eye 2]; [mk [] [g 2 0]; mk [] [g 2 0]]] /\
  entry_of (inject ex_s [0; 2; 3]%Z [InjRep 1 None; InjMany [Some (mk [2] [g 0 1; g 1 0]); None]; InjRep 2 (Some (mk [] [g 2 0]))])
    [[1;1];[0];[1];[0];[0;0];[1];[];[]] = Some (kmul (g 0 4) (entry ex_s [[0];[1];[1]])).
Proof.
  split; [cbn; lia|]. split; [|vm_compute; reflexivity].
  repeat (constructor; [unfold injected; cbn; repeat constructor; try (do 2 eexists; split; reflexivity)|]). constructor.
Qed.

(** C34: regular_slices and embed_slice. *)
Theorem C34_regular_slices (length width offset : Z) :
  (0 < offset)%Z -> (width <= length)%Z -> ((length - width) mod offset = 0)%Z ->
  exists sl, regular_slices length width offset = Ok sl /\
    (forall k, k < List.length sl -> nth k sl (0, 0)%Z = (offset * Z.of_nat k, offset * Z.of_nat k + width)%Z) /\
    (Z.of_nat (List.length sl) = (length - width) / offset + 1)%Z /\
    fst (nth 0 sl (0, 0)%Z) = 0%Z /\ snd (List.last sl (0, 0)%Z) = length.
Proof. exact (regular_slices_spec length width offset). Qed.
Print Assumptions C34_regular_slices.
Theorem C34_regular_slices_uncovered (length width offset : Z) :
  offset <> 0%Z -> ((length - width) mod offset <> 0)%Z -> regular_slices length width offset = Err AssertionError.
Proof. exact (regular_slices_uncovered length width offset). Qed.
Print Assumptions C34_regular_slices_uncovered.
Theorem C34_embed_slice (K : StarRing) (x : ltens K) emb e (n start : nat) :
  mpa_ok x -> embed_tensor x emb e -> ndwf e -> start + llen x <= n ->
  exists z, embed_slice n (mkSlice (Some (Z.of_nat start)) (Some (Z.of_nat (start + llen x))) None) x emb = Ok z /\ mpa_ok z /\
    mshape z = repeat (shp e) start ++ mshape x ++ repeat (shp e) (n - (start + llen x)) /\
    lcan z = 0%Z /\ rcan z = Z.of_nat n /\
    forall i1 i2 i3, valid_idx i1 (repeat (shp e) start) -> valid_idx i2 (mshape x) ->
      valid_idx i3 (repeat (shp e) (n - (start + llen x))) ->
      entry z (i1 ++ i2 ++ i3) = (kprod (map (get e) i1) * entry x i2 * kprod (map (get e) i3))%K.
Proof.
  intros Hx He Hw Hl. pose proof (embed_slice_spec x emb e n start Hx He Hw Hl) as H. split_all H. intros i1 i2 i3 H1' H2' H3'.
  rewrite !entry_amp; auto. shape_rw. apply Forall2_app; [exact H1'|]. apply Forall2_app; assumption.
Qed.
Print Assumptions C34_embed_slice.
Theorem C34_embed_slice_wrong_width (K : StarRing) (x : ltens K) emb (n : nat) (a b : nat) :
  a <= b -> b <= n -> llen x <> b - a ->
  embed_slice n (mkSlice (Some (Z.of_nat a)) (Some (Z.of_nat b)) None) x emb = Err AssertionError.
Proof. exact (embed_slice_wrong_width x emb n a b). Qed.
Print Assumptions C34_embed_slice_wrong_width.
Example C34_ex : regular_slices 7 3 2 = Ok [(0, 3); (2, 5); (4, 7)]%Z /\ regular_slices 8 3 2 = Err AssertionError /\
  embed_tensor ex_o None (eye 2) /\
  entry_of (embed_slice 5 (mkSlice (Some 1%Z) (Some 4%Z) None) ex_o None) [[1;1];[0;1];[1;0];[1;1];[0;0]] = Some (g 8 4) /\
  entry_of (embed_slice 5 (mkSlice (Some 1%Z) (Some 4%Z) None) ex_o None) [[1;0];[0;1];[1;0];[1;1];[0;0]] = Some (g 0 0).
Proof. split; [reflexivity|]. split; [reflexivity|]. split; [do 2 eexists; split; reflexivity|]. vm_compute. auto. Qed.

(** C35: local_sum. *)
Lemma valid_window p L w a is : valid_idx is (repeat p L) -> a + w <= L -> valid_idx (firstn w (skipn a is)) (repeat p w).
Proof.
  intros H Hl. destruct (firstn_skipn_idx is p L a w H Hl) as [_ [H2 _]]. exact H2.
Qed.
Theorem C35_local_sum_identity (K : StarRing) (mpas : list (ltens K)) emb e p w :
  mpas <> [] -> Forall mpa_ok mpas -> Forall (fun x => mshape x = repeat p w) mpas ->
  embed_tensor (hd (mkLt [] 0 0) mpas) emb e -> ndwf e -> shp e = p ->
  exists z, local_sum_identity mpas emb = Ok z /\ mpa_ok z /\ mshape z = repeat p (length mpas + w - 1) /\
    lcan z = 0%Z /\ rcan z = Z.of_nat (length mpas + w - 1) /\
    (forall D, 1 <= D -> Forall (fun x => Forall (fun r => r <= D) (ranks x)) mpas -> Forall (fun r => r <= w * D + 1) (ranks z)) /\
    forall is, valid_idx is (repeat p (length mpas + w - 1)) ->
      entry z is = bigsum (length mpas) (fun s => kprod (map (get e) (firstn s is)) *
        entry (nth s mpas (mkLt [] 0 0)) (firstn w (skipn s is)) * kprod (map (get e) (skipn (s + w) is)))%K.
Proof.
  intros H1 H2 H3 H4 H5 H6. pose proof (local_sum_identity_spec mpas emb e p w H1 H2 H3 H4 H5 H6) as H. split_all H. intros is Hi.
  rewrite entry_amp; [|assumption|shape_rw; exact Hi]. rewrite H by exact Hi. apply bigsum_ext. intros s Hs. f_equal. f_equal. symmetry.
  rewrite Forall_forall in H2, H3. assert (Hn := nth_In mpas (mkLt [] 0 0) Hs). apply entry_amp; [apply H2; exact Hn|].
  rewrite (H3 _ Hn). apply (valid_window p (length mpas + w - 1)); [exact Hi|lia].
Qed.
Print Assumptions C35_local_sum_identity.
(** Terms at arbitrary windows. *)
Theorem C35_local_sum (K : StarRing) (mpas : list (ltens K)) (sts : list nat) emb e p (L : nat) :
  mpas <> [] -> length sts = length mpas -> Forall mpa_ok mpas ->
  Forall (fun x => mshape x = repeat p (llen x)) mpas -> Forall2 (fun a x => a + llen x <= L) sts mpas ->
  Forall (fun x => embed_tensor x emb e) mpas -> ndwf e -> shp e = p ->
  exists z, local_sum mpas emb L (Some (windows sts mpas)) = Ok z /\ mpa_ok z /\ mshape z = repeat p L /\
    lcan z = 0%Z /\ rcan z = Z.of_nat L /\
    forall is, valid_idx is (repeat p L) ->
      entry z is = bigsum (length mpas) (fun j => let a := nth j sts 0%nat in let x := nth j mpas (mkLt [] 0%Z 0%Z) in
        kprod (map (get e) (firstn a is)) * entry x (firstn (llen x) (skipn a is)) * kprod (map (get e) (skipn (a + llen x)%nat is)))%K.
Proof.
  intros H1 H2 H3 H4 H5 H6 H7 H8. pose proof (local_sum_spec mpas sts emb e p L H1 H2 H3 H4 H5 H6 H7 H8) as H. split_all H. intros is Hi.
  rewrite entry_amp; [|assumption|shape_rw; exact Hi]. rewrite H by exact Hi. apply bigsum_ext. intros j Hj. unfold embedded. cbv zeta. f_equal. f_equal. symmetry.
  rewrite Forall_forall in H3, H4. assert (Hn := nth_In mpas (mkLt [] 0 0) Hj). apply entry_amp; [apply H3; exact Hn|].
  rewrite (H4 _ Hn) at 1. apply (valid_window p L); [exact Hi|].
  clear -H5 Hj. revert j Hj. induction H5 as [|a x sts mpas H HF IH]; intros j Hj; cbn in Hj; [lia|].
  destruct j as [|j]; [exact H|]. apply IH. lia.
Qed.
Print Assumptions C35_local_sum.
Definition ex_h (c : Z) : ltens GZ :=
  mkLt [mk [1;2;2;2] [gi c; g 0 1; g 2 1; g 0 0; g 0 0; g 1 1; g 3 0; g 1 (-1)];
        mk [2;2;2;1] [g 1 0; g 0 1; g 0 0; g 2 0; g 1 1; gi c; g 1 0; g 3 (-1)]] 0 2.
Example C35_ex : Forall mpa_ok [ex_h 1; ex_h 2; ex_h 3] /\ embed_tensor (ex_h 1) None (eye 2) /\
  ranks_of (local_sum_identity [ex_h 1; ex_h 2; ex_h 3] None) = Some [3; 4; 3] /\
  match local_sum_identity [ex_h 1; ex_h 2; ex_h 3] None, local_sum [ex_h 1; ex_h 2; ex_h 3] None 4 (Some (windows [0; 2; 1] [ex_h 1; ex_h 3; ex_h 2])) with
  | Ok a, Ok b => mshape a = mshape b /\ mshape a = repeat [2;2] 4 | _, _ => False end.
Proof.
  split; [repeat constructor; cbn; lia || discriminate|]. split; [do 2 eexists; split; reflexivity|]. split; [vm_compute; reflexivity|].
  vm_compute. auto.
Qed.

(** C36: block_diag and the local direct sum. *)
Theorem C36_block_diag (K : StarRing) (ss : list (nd K)) (axes : list nat) n0 :
  ss <> [] -> axes <> [] -> NoDup axes -> (forall k, In k axes -> k < n0) ->
  (forall s, In s ss -> ndwf s /\ ndim s = n0 /\ forall k, k < n0 -> ~ In k axes -> nth k (shp s) 0 = nth k (shp (hd dummy ss)) 0) ->
  exists T, block_diag_py ss axes = Ok T /\ ndwf T /\ shp T = block_shape ss axes /\
    (forall j idx, j < length ss -> inr idx (shp (nth j ss dummy)) -> get T (shift_block ss axes j idx) = get (nth j ss dummy) idx) /\
    (forall idx, inr idx (shp T) ->
       (forall j idx0, j < length ss -> inr idx0 (shp (nth j ss dummy)) -> idx <> shift_block ss axes j idx0) -> get T idx = k0).
Proof. exact (block_diag_spec ss axes n0). Qed.
Print Assumptions C36_block_diag.
Theorem C36_block_diag_local_add (K : StarRing) p (ts : list (nd K)) : ts <> [] -> fam p ts ->
  exists T, local_add ts = Ok T /\ block_diag_py ts [0; ndim (hd dummy ts) - 1] = Ok T.
Proof. exact (block_diag_local_add p ts). Qed.
Print Assumptions C36_block_diag_local_add.
Example C36_ex : block_diag_py [mk [1;2;1] [g 1 0; g 2 0]; mk [2;2;1] [g 3 0; g 4 0; g 5 0; g 6 0]] [0; 2] =
  Ok (mk [3;2;2] [g 1 0; g 0 0; g 2 0; g 0 0; g 0 0; g 3 0; g 0 0; g 4 0; g 0 0; g 5 0; g 0 0; g 6 0]).
Proof. vm_compute. reflexivity. Qed.

(** C37: full_rank. *)
Theorem C37_full_rank (ldims : list (list nat)) k : S k < length ldims ->
  nth k (full_rank ldims) 0 = Nat.min (size (concat (firstn (S k) ldims))) (size (concat (skipn (S k) ldims))) /\
  length (full_rank ldims) = length ldims - 1.
Proof. exact (full_rank_spec ldims k). Qed.
Print Assumptions C37_full_rank.
Example C37_ex : full_rank [[2;3];[2;3];[2;3];[2;3]] = [6; 36; 6].
Proof. reflexivity. Qed.
