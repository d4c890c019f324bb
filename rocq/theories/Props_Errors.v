(** C76: arguments that the operations reject, and the errors they raise. *)
From Verif Require Import Gauss CanonSpec Chain Dense PfDot PfBlock MpStruct MpArray PfErrors PfErrors2 PfErrors3 Examples.
From Coq Require Import Permutation Lia.
Open Scope nat_scope.

(** [in_range n z]: z is one of -n, ..., n-1; [pos_of n z] is the position it means. *)
(** [x.get]: one index per site, in range for the first physical leg. *)
Theorem C76_get (K : StarRing) (x : ltens K) idx : length idx = llen x -> Forall lt_ok (lts x) ->
  Exists (fun p => length (pdims (snd p)) = 0 \/ ~ in_range (hd 0 (pdims (snd p))) (fst p)) (combine idx (lts x)) -> mget x idx = Err IndexError.
Proof. intros H1 H2 H3. exact (get_err x idx H1 H3 H2). Qed.
Print Assumptions C76_get.
(** [x.transpose(axes)]: [transposable], after adding 1 to the axes they are a permutation of the inner axes. *)
Theorem C76_transpose (K : StarRing) (x : ltens K) axes :
  (Exists (fun t => ~ transposable (ndim t) axes) (lts x) -> mtranspose x (Some axes) = Err ValueError) /\
  (forall z, mtranspose x (Some axes) = Ok z -> Forall (fun t => transposable (ndim t) axes) (lts x)).
Proof. split; [exact (transpose_err x axes)|intros z; exact (transpose_acc x axes z)]. Qed.
Print Assumptions C76_transpose.
(** [x.sum(axes)] with one list of axes for all sites, and with one list per site: the first site that does not
    accept its axes determines the error. *)
Theorem C76_sum (K : StarRing) (x : ltens K) pre t post zs : lts x = pre ++ t :: post -> Forall (fun u => summable (ndim u) zs) pre ->
  let F := Forall (fun z => in_range (ndim t) (z + 1)) zs in
  (~ F -> msum_mpa x (SList (map EInt zs)) = Err IndexError) /\ (F -> ~ NoDup (map (fun z => pos_of (ndim t) (z + 1)) zs) -> msum_mpa x (SList (map EInt zs)) = Err ValueError).
Proof. intros H1 H2 F. destruct (sum_err x pre t post zs H1 H2) as [A B]. split; [exact A|]. intros HF N. apply (B HF). intros [_ Q]. contradiction. Qed.
Print Assumptions C76_sum.
Theorem C76_sum_sites (K : StarRing) (x : ltens K) pre t post apre zs apost : Forall lt_ok (lts x) -> lts x = pre ++ t :: post -> length apre = length pre -> length apost = length post ->
  Forall (fun p => summable (ndim (snd p)) (fst p)) (combine apre pre) ->
  let F := Forall (fun z => in_range (ndim t) (z + 1)) zs in let arg := SList (map ESeq (apre ++ zs :: apost)) in
  (~ F -> msum_mpa x arg = Err IndexError) /\ (F -> ~ NoDup (map (fun z => pos_of (ndim t) (z + 1)) zs) -> msum_mpa x arg = Err ValueError).
Proof. intros H1 H2 H3 H4 H5 F arg. destruct (sum_err_sites x pre t post apre zs apost H1 H2 H3 H4 H5) as [A B]. split; [exact A|]. intros HF N. apply (B HF). intros [_ Q]. contradiction. Qed.
Print Assumptions C76_sum_sites.
Theorem C76_sum_length (K : StarRing) (x : ltens K) a ls : length (a :: ls) <> llen x -> msum_mpa x (SList (map ESeq (a :: ls))) = Err AssertionError.
Proof. exact (sum_err_length x a ls). Qed.
Print Assumptions C76_sum_length.

(** [x + y] on one site: the legs are compared from the last one, and a missing leg or a leg of dimension one is
    repeated. *)
Theorem C76_add_one (K : StarRing) (x y : ltens K) p q : mpa_ok x -> mpa_ok y -> mshape x = [p] -> mshape y = [q] ->
  (compat p q -> exists z, madd x y = Ok z /\ mpa_ok z /\ mshape z = [common p q] /\ forall i, inr i (common p q) -> entry z [i] = (entry x [restrict p i] + entry y [restrict q i])%K) /\
  (~ compat p q -> madd x y = Err ValueError).
Proof. exact (add_one x y p q). Qed.
Print Assumptions C76_add_one.
(** On two or more sites: the two ends need equal shapes, a tensor of [y] in between must fit the legs of [x]. *)
Theorem C76_add_many (K : StarRing) (x y : ltens K) t0 mt tn u0 mu un : Forall lt_ok (lts x) -> Forall lt_ok (lts y) ->
  lts x = t0 :: mt ++ [tn] -> lts y = u0 :: mu ++ [un] -> length mt = length mu ->
  ~ (ldim t0 :: pdims t0 = ldim u0 :: pdims u0 /\ Forall (fun p => fits (shp (snd p)) (ldim (snd p) :: pdims (fst p) ++ [rdim (snd p)])) (combine mt mu) /\ pdims tn ++ [rdim tn] = pdims un ++ [rdim un]) -> madd x y = Err ValueError.
Proof. exact (add_many_err x y t0 mt tn u0 mu un). Qed.
Print Assumptions C76_add_many.
(** Arrays of different shapes can be added without an error, on one site and on three. *)
Definition er_v (a : list (nd GZ)) : ltens GZ := mkLt a 0 (Z.of_nat (length a)).
Definition er_t (d : nat) : nd GZ := mk (1 :: [d; 1]) (map (fun k => g (Z.of_nat k + 1) 0) (seq 0 d)).
Theorem C76_add_refuted : (exists x y z : ltens GZ, mpa_ok x /\ mpa_ok y /\ mshape x = [[2]] /\ mshape y = [[1]] /\ madd x y = Ok z /\ mshape z = [[2]]) /\
  (exists x y z : ltens GZ, mpa_ok x /\ mpa_ok y /\ mshape x = [[2]; [2]; [2]] /\ mshape y = [[2]; [1]; [2]] /\ madd x y = Ok z /\ mshape z = [[2]; [2]; [2]]).
Proof.
  split; [exists (er_v [er_t 2]), (er_v [er_t 1])|exists (er_v [er_t 2; er_t 2; er_t 2]), (er_v [er_t 2; er_t 1; er_t 2])]; (eexists; split; [apply mpa_okb_ok; reflexivity|]; split; [apply mpa_okb_ok; reflexivity|]; split; [reflexivity|]; split; [reflexivity|]; split; [vm_compute; reflexivity|reflexivity]).
Qed.
Print Assumptions C76_add_refuted.

(** [dot], [inner], [localouter] *)
Theorem C76_lengths (K : StarRing) (x y : ltens K) ax : llen x <> llen y -> mdot x y ax = Err AssertionError /\ minner x y = Err AssertionError /\ localouter x y = Err AssertionError.
Proof. exact (dot_err_length x y ax). Qed.
Print Assumptions C76_lengths.
Theorem C76_dot_number (K : StarRing) (x y : ltens K) la lb : llen x = llen y -> lts x <> [] -> length la <> length lb -> mdot x y (ASeq la lb) = Err AssertionError.
Proof. exact (dot_err_number x y la lb). Qed.
Print Assumptions C76_dot_number.
(** The first site that cannot be contracted determines the error.  The axes are shifted past the virtual legs,
    so -n-1 and n are the virtual legs and still accepted. *)
Theorem C76_dot (K : StarRing) (x y : ltens K) la lb tpre t tpost upre u upost : Forall lt_ok (lts x) -> Forall lt_ok (lts y) -> length la = length lb ->
  lts x = tpre ++ t :: tpost -> lts y = upre ++ u :: upost -> length tpre = length upre -> length tpost = length upost ->
  Forall (fun p => contractible (fst p) (snd p) la lb) (combine tpre upre) ->
  let far n z := (z < - Z.of_nat n - 1 \/ Z.of_nat n < z)%Z in
  (Exists (far (length (pdims t))) la \/ Exists (far (length (pdims u))) lb -> mdot x y (ASeq la lb) = Err IndexError) /\
  (forall al ar, legs_at (length (pdims t)) la al -> legs_at (length (pdims u)) lb ar -> ~ (NoDup al /\ NoDup ar /\ gather al (pdims t) = gather ar (pdims u)) -> mdot x y (ASeq la lb) = Err ValueError).
Proof. exact (dot_err x y la lb tpre t tpost upre u upost). Qed.
Print Assumptions C76_dot.
Theorem C76_inner (K : StarRing) (x y : ltens K) : Forall lt_ok (lts x) -> Forall lt_ok (lts y) -> llen x = llen y ->
  Exists (fun p => size (pdims (fst p)) <> size (pdims (snd p))) (combine (lts x) (lts y)) -> minner x y = Err ValueError.
Proof. exact (inner_err x y). Qed.
Print Assumptions C76_inner.

(** [partialtrace], [trace].  [pt_list] is the pair of legs for each site. *)
Theorem C76_partialtrace (K : StarRing) (x : ltens K) arg : Forall lt_ok (lts x) ->
  let out := Exists (bad_pair (fun n a b => ~ in_range n a \/ ~ in_range n b)) (combine (lts x) (pt_list x arg)) in
  (out -> partialtrace x arg = Err AssertionError) /\
  (~ out -> Exists (bad_pair (fun n a b => pos_of n a = pos_of n b)) (combine (lts x) (pt_list x arg)) -> partialtrace x arg = Err ValueError) /\
  partialtrace x (PTSites []) = Err IndexError /\
  (forall e, partialtrace x arg = Err e -> mtrace x arg = Err e).
Proof. intros W out. split; [exact (pt_err_axis x arg W)|]. split; [exact (pt_err_same x arg W)|]. split; [exact (pt_err_empty x)|exact (trace_err_pt x arg)]. Qed.
Print Assumptions C76_partialtrace.
Theorem C76_trace (K : StarRing) (x : ltens K) arg z : partialtrace x arg = Ok z -> mpa_ok z -> size (concat (mshape z)) <> 1 -> mtrace x arg = Err AssertionError.
Proof. exact (trace_err x arg z). Qed.
Print Assumptions C76_trace.

(** [diag] *)
Theorem C76_diag (K : StarRing) (x : ltens K) axis :
  (Exists (fun p => ~ in_range (length p) axis) (mshape x) -> mdiag x axis = Err IndexError) /\
  (forall s0 ss, mshape x = s0 :: ss -> Forall (fun p => in_range (length p) axis) (mshape x) ->
     Exists (fun p => nth (pos_of (length p) axis) p 0 <> nth (pos_of (length s0) axis) s0 0 \/ length p <> length s0) (mshape x) -> mdiag x axis = Err AssertionError).
Proof. split; [exact (diag_err_axis x axis)|intros s0 ss; exact (diag_err_dims x axis s0 ss)]. Qed.
Print Assumptions C76_diag.

(** A negative axis of [diag] is looked up among the virtual legs, so [axis=-1] never gives a diagonal of two or
    more entries; the axes -1 and -2 of [transpose] are virtual legs and rejected. *)
Theorem C76_diag_negative (K : StarRing) (x : ltens K) axis s0 ss : mpa_ok x -> mshape x = s0 :: ss -> (axis < 0)%Z -> 2 <= nth (pos_of (length s0) axis) s0 0 -> exists e, mdiag x axis = Err e.
Proof. exact (diag_negative x axis s0 ss). Qed.
Print Assumptions C76_diag_negative.
Theorem C76_transpose_negative (K : StarRing) (x : ltens K) axes z : Forall lt_ok (lts x) -> lts x <> [] -> In z axes -> z = (-1)%Z \/ z = (-2)%Z -> mtranspose x (Some axes) = Err ValueError.
Proof. exact (transpose_negative x axes z). Qed.
Print Assumptions C76_transpose_negative.

(** [x.lt.update] with any slice: the k-th selected site gets the k-th tensor, if there is also a k-th flag; all
    other sites keep theirs. *)
Theorem C76_update_slice (K : StarRing) (x z : ltens K) s ts c : lt_update_slice x s ts c = Ok z ->
  llen z = llen x /\ forall p, p < llen x ->
    (forall k t, selects s (llen x) k p -> nth_error ts k = Some t -> k < length (flags_of (length ts) c) -> nth_error (lts z) p = Some t) /\
    ((forall k, selects s (llen x) k p -> length ts <= k \/ length (flags_of (length ts) c) <= k) -> nth_error (lts z) p = nth_error (lts x) p).
Proof. exact (update_slice_sites x z s ts c). Qed.
Print Assumptions C76_update_slice.
Theorem C76_update_step (K : StarRing) (x : ltens K) a b ts c : lt_update_slice x (mkSlice a b (Some 0%Z)) ts c = Err ValueError.
Proof. exact (update_slice_step0 x a b ts c). Qed.
Print Assumptions C76_update_step.
(** The last two of three sites in reverse order, counted from the end: x.lt[-1:-3:-1]. *)
Example C76_selects : let s := mkSlice (Some (-1)%Z) (Some (-3)%Z) (Some (-1)%Z) in selects s 3 0 2 /\ selects s 3 1 1 /\ ~ (exists k, selects s 3 k 0) /\
  (exists z, lt_update_slice (er_v [er_t 2; er_t 2; er_t 2]) s [er_t 1; er_t 3] (COne None) = Ok z /\ mshape z = [[2]; [3]; [1]]).
Proof.
  split; [split; [reflexivity|split; [lia|cbn; lia]]|]. split; [split; [reflexivity|split; [lia|cbn; lia]]|]. split; [|eexists; split; vm_compute; reflexivity]. intros (k & H1 & _ & H3). cbn in *. lia.
Qed.

(** [embed_slice] *)
Theorem C76_embed (K : StarRing) (x : ltens K) n :
  (forall s emb d, s_step s = Some d -> d <> 1%Z -> embed_slice n s x emb = Err (if (d =? 0)%Z then ValueError else AssertionError)) /\
  (forall a b, a <= b -> b <= n -> let s := mkSlice (Some (Z.of_nat a)) (Some (Z.of_nat b)) None in
     (llen x <> b - a -> forall emb, embed_slice n s x emb = Err AssertionError) /\
     (llen x = b - a -> forall s0 ss, mshape x = s0 :: ss -> (forall d, s0 <> [d; d]) -> embed_slice n s x None = Err AssertionError)).
Proof.
  split; [intros s emb d; exact (embed_err_step x n s emb d)|]. intros a b H1 H2 s. split; [intros H emb; exact (embed_err_length x n a b emb H1 H2 H)|intros H s0 ss; exact (embed_err_square x n a b s0 ss H1 H2 H)].
Qed.
Print Assumptions C76_embed.

(** Lists of summands or factors that are empty or of different length; zero as a divisor. *)
Theorem C76_lists (K : StarRing) :
  (forall w, msumup (K:=K) [] w = Err IndexError) /\ (forall emb n, local_sum (K:=K) [] emb n None = Err IndexError) /\ (forall xs emb n, local_sum (K:=K) xs emb n (Some []) = Err IndexError) /\
  mchain (K:=K) [] = Err ValueError /\ (forall axes, block_diag_py (K:=K) [] axes = Err IndexError) /\
  (forall (x0 : ltens K) xs, Exists (fun x => llen x <> llen x0) xs -> (forall w, msumup (x0 :: xs) w = Err AssertionError) /\ forall emb n, local_sum (x0 :: xs) emb n None = Err AssertionError) /\
  (forall x : ltens K, group_sites x 0 = Err ZeroDivisionError) /\ (forall l w, regular_slices l w 0 = Err ZeroDivisionError).
Proof.
  repeat (split; [intros; reflexivity|]). split; [|split; intros; reflexivity]. intros x0 xs H. split; [intros w; exact (sumup_err_length x0 xs w H)|intros emb n; exact (local_sum_err_length x0 xs emb n H)].
Qed.
Print Assumptions C76_lists.

(** [block_diag]: along the axes outside the blocks, summands of size one are repeated to the size of the first
    summand; C36_block_diag describes the result for the repeated summands. *)
Theorem C76_block_diag (K : StarRing) (s0 : nd K) ss axes : Forall ndwf (s0 :: ss) ->
  (Forall (fun s => repeatable s0 s axes) ss -> exists es, Forall2 (fun s e => repeated s0 s e axes) (s0 :: ss) es /\ block_diag_py (s0 :: ss) axes = block_diag_py es axes) /\
  (~ Forall (fun s => repeatable s0 s axes) ss -> block_diag_py (s0 :: ss) axes = Err ValueError).
Proof. exact (block_diag_repeat s0 ss axes). Qed.
Print Assumptions C76_block_diag.

(** Each error is reached. *)
Definition er_x : ltens GZ := er_v [er_t 2; er_t 3].
Definition er_o : ltens GZ := er_v [mk [1; 2; 2; 1] [g 1 0; g 2 0; g 3 0; g 4 0]; mk [1; 3; 2; 1] (repeat (g 1 0) 6)].
Example C76_ex : mpa_ok er_x /\ mpa_ok er_o /\
  mget er_x [1; 3]%Z = Err IndexError /\ mget er_x [1; -3]%Z <> Err IndexError /\
  mtranspose er_o (Some [0; 0]%Z) = Err ValueError /\ mtranspose er_o (Some [1; 2]%Z) = Err ValueError /\
  msum_mpa er_o (SList (map EInt [3]%Z)) = Err IndexError /\ msum_mpa er_o (SList (map EInt [0; 0]%Z)) = Err ValueError /\
  msum_mpa er_o (SList (map ESeq [[0]; [5]]%Z)) = Err IndexError /\ msum_mpa er_o (SList (map ESeq [[0]]%Z)) = Err AssertionError /\
  madd er_x er_o = Err ValueError /\ madd (er_v [er_t 2]) (er_v [er_t 3]) = Err ValueError /\
  mdot er_o er_x (ASeq [4]%Z [0]%Z) = Err IndexError /\ mdot er_o er_x (ASeq [1]%Z [0]%Z) = Err ValueError /\ mdot er_o er_x (ASeq [1; 0]%Z [0]%Z) = Err AssertionError /\
  minner er_x (er_v [er_t 2; er_t 2]) = Err ValueError /\
  partialtrace er_o (PTAll 0 2) = Err AssertionError /\ partialtrace er_o (PTAll 0 (-2)) = Err ValueError /\ mtrace er_o (PTSites [Some (0, 1)%Z; None]) = Err AssertionError /\
  mdiag er_x 1 = Err IndexError /\ mdiag er_x 0 = Err AssertionError /\ mdiag (er_v [er_t 2; er_t 2]) (-1) = Err AssertionError /\ mdiag (er_v [er_t 2]) (-1) = Err IndexError /\
  mtranspose er_o (Some [-2; -1]%Z) = Err ValueError /\ (exists z, mtranspose er_o (Some [-3; 0]%Z) = Ok z /\ mshape z = [[2; 2]; [2; 3]]) /\
  block_diag_py [mk [1; 2] [g 1 0; g 2 0]; mk [1; 3] [g 1 0; g 2 0; g 3 0]] [0] = Err ValueError /\
  block_diag_py [mk [1; 2] [g 1 0; g 2 0]; mk [1; 1] [g 5 0]] [0] = Ok (mk [2; 2] [g 1 0; g 2 0; g 5 0; g 5 0]).
Proof. split; [apply mpa_okb_ok; reflexivity|]. split; [apply mpa_okb_ok; reflexivity|]. repeat split; try (eexists; split); vm_compute; try reflexivity; discriminate. Qed.
