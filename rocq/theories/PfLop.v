(** The compression of a global operator to a window of an MPS (specification), and
    its equality with the operators built by [eig] and [eig_sum]. *)
From Verif Require Export PfLocal.
Open Scope nat_scope.

Section Lop.
Context {K : StarRing}.
Add Ring Kr : (k_ring K).

(** Local indices [(a, i..., a')]. *)
Lemma inr2_inv x a b : inr x [a; b] -> exists i j, x = [i; j] /\ i < a /\ j < b.
Proof.
  intros H. destruct (inr_cons_inv _ _ _ H) as (i & l & -> & Hi & Hl). destruct (inr_single_inv _ _ Hl) as (j & -> & Hj). exists i, j. auto.
Qed.
Definition mid (r : list nat) : list nat := removelast (tl r).
Definition hd0 (r : list nat) : nat := hd 0 r.
Definition last0 (r : list nat) : nat := List.last r 0.
Lemma mid_mk a i b : mid (a :: i ++ [b]) = i.
Proof. unfold mid. cbn [tl]. apply removelast_last. Qed.
Lemma hd_mk a i b : hd0 (a :: i ++ [b]) = a.
Proof. reflexivity. Qed.
Lemma last_mk (a : nat) i b : last0 (a :: i ++ [b]) = b.
Proof. unfold last0. rewrite app_comm_cons. apply last_last. Qed.

(** Matrix element of the operator [M] between the states with a unit tensor at the
    local indices [r] and [c] in the window; the sites [X1] are to the left and the
    sites [X3] to the right of the window. *)
Definition kern (d1 d3 : list nat) (X1 X3 : list (nd K)) (M : list nat -> list nat -> K) (r c : list nat) : K :=
  msum d1 (fun i1 => msum d3 (fun i3 => msum d1 (fun j1 => msum d3 (fun j3 =>
    M (i1 ++ mid r ++ i3) (j1 ++ mid c ++ j3) *
    (amp X1 (singles j1) 0 (hd0 c) * amp X3 (singles j3) (last0 c) 0) *
    kconj (amp X1 (singles i1) 0 (hd0 r) * amp X3 (singles i3) (last0 r) 0))%K))).
Definition lop (d1 d2 d3 : list nat) (la ra : nat) (X1 X3 : list (nd K)) (M : list nat -> list nat -> K) : nd K :=
  let sh := la :: d2 ++ [ra] in
  tab [size sh; size sh] (fun x => kern d1 d3 X1 X3 M (unravel sh (nth 0 x 0)) (unravel sh (nth 1 x 0))).

Lemma get_lop d1 d2 d3 la ra X1 X3 M r c : let sh := la :: d2 ++ [ra] in inr r sh -> inr c sh ->
  get (lop d1 d2 d3 la ra X1 X3 M) [ravel sh r; ravel sh c] = kern d1 d3 X1 X3 M r c.
Proof.
  intros sh Hr Hc. unfold lop. fold sh. rewrite get_tab.
  - cbn [nth]. rewrite !unravel_ravel by assumption. reflexivity.
  - apply inr_cons; [apply ravel_lt; exact Hr|]. apply inr_single. apply ravel_lt. exact Hc.
Qed.
Lemma kern_ext d1 d3 X1 X3 M M' r c d2 la ra : inr r (la :: d2 ++ [ra]) -> inr c (la :: d2 ++ [ra]) ->
  (forall is js, inr is (d1 ++ d2 ++ d3) -> inr js (d1 ++ d2 ++ d3) -> M is js = M' is js) ->
  kern d1 d3 X1 X3 M r c = kern d1 d3 X1 X3 M' r c.
Proof.
  intros Hr Hc E. destruct (inr_shape_inv _ _ _ _ Hr) as (a & i & a' & -> & _ & Hi & _).
  destruct (inr_shape_inv _ _ _ _ Hc) as (b & j & b' & -> & _ & Hj & _). unfold kern. rewrite !mid_mk.
  apply msum_ext. intros i1 H1. apply msum_ext. intros i3 H3. apply msum_ext. intros j1 G1. apply msum_ext. intros j3 G3.
  rewrite E; [reflexivity| |]; repeat apply inr_app; auto.
Qed.
Lemma lop_ext d1 d2 d3 la ra X1 X3 M M' :
  (forall is js, inr is (d1 ++ d2 ++ d3) -> inr js (d1 ++ d2 ++ d3) -> M is js = M' is js) ->
  lop d1 d2 d3 la ra X1 X3 M = lop d1 d2 d3 la ra X1 X3 M'.
Proof.
  intros E. unfold lop. apply tab_ext. intros x Hx. destruct (inr2_inv _ _ _ Hx) as (r & c & -> & Hr & Hc). cbn [nth].
  apply (kern_ext d1 d3 X1 X3 M M' _ _ d2 la ra); auto; apply unravel_inr; assumption.
Qed.
(** Equality with the compression from its entries. *)
Lemma lop_eq d1 d2 d3 la ra X1 X3 M (op : nd K) : let sh := la :: d2 ++ [ra] in
  ndwf op -> shp op = [size sh; size sh] ->
  (forall a i a' b j b', a < la -> inr i d2 -> a' < ra -> b < la -> inr j d2 -> b' < ra ->
     get op [ravel sh (a :: i ++ [a']); ravel sh (b :: j ++ [b'])] = kern d1 d3 X1 X3 M (a :: i ++ [a']) (b :: j ++ [b'])) ->
  op = lop d1 d2 d3 la ra X1 X3 M.
Proof.
  intros sh W So G. apply nd_eq; [exact W|apply wf_tab|rewrite So; reflexivity|].
  rewrite So. intros x Hx. destruct (inr2_inv _ _ _ Hx) as (r & c & -> & Hr & Hc).
  pose proof (unravel_inr sh r Hr) as Ir. pose proof (unravel_inr sh c Hc) as Ic.
  rewrite <- (ravel_unravel sh r Hr), <- (ravel_unravel sh c Hc).
  transitivity (kern d1 d3 X1 X3 M (unravel sh r) (unravel sh c)); [|symmetry; apply get_lop; assumption].
  destruct (inr_shape_inv _ _ _ _ Ir) as (a & i & a' & -> & H1 & H2 & H3).
  destruct (inr_shape_inv _ _ _ _ Ic) as (b & j & b' & -> & H4 & H5 & H6). apply G; assumption.
Qed.

Lemma msum_local la d2 ra (f : list nat -> K) :
  msum (la :: d2 ++ [ra]) f = bigsum la (fun a => msum d2 (fun i => bigsum ra (fun a' => f (a :: i ++ [a'])))).
Proof. cbn [msum]. apply bigsum_ext. intros a _. rewrite msum_app. apply msum_ext. intros i _. reflexivity. Qed.

(** ** The quadratic form *)
Definition psi_of (X1 X3 : list (nd K)) (la ra : nat) (y : list nat -> K) (j1 j2 j3 : list nat) : K :=
  bigsum la (fun a => bigsum ra (fun a' =>
    (amp X1 (singles j1) 0 a * amp X3 (singles j3) a' 0 * y (a :: j2 ++ [a']))%K)).

Lemma psi_sum d1 d2 d3 la ra X1 X3 (y F : list nat -> K) :
  msum (la :: d2 ++ [ra]) (fun c => y c * msum d1 (fun j1 => msum d3 (fun j3 =>
     F (j1 ++ mid c ++ j3) * (amp X1 (singles j1) 0 (hd0 c) * amp X3 (singles j3) (last0 c) 0))))%K =
  msum d1 (fun j1 => msum d2 (fun j2 => msum d3 (fun j3 => F (j1 ++ j2 ++ j3) * psi_of X1 X3 la ra y j1 j2 j3)))%K.
Proof.
  rewrite msum_local.
  transitivity (bigsum la (fun a => msum d2 (fun j2 => bigsum ra (fun a' => msum d1 (fun j1 => msum d3 (fun j3 =>
    F (j1 ++ j2 ++ j3) * (amp X1 (singles j1) 0 a * amp X3 (singles j3) a' 0 * y (a :: j2 ++ [a'])))))))%K).
  { apply bigsum_ext. intros a _. apply msum_ext. intros j2 _. apply bigsum_ext. intros a' _.
    rewrite <- msum_mul_l. apply msum_ext. intros j1 _. rewrite <- msum_mul_l. apply msum_ext. intros j3 _.
    rewrite mid_mk, last_mk. rewrite ?hd_mk. ring. }
  transitivity (msum d1 (fun j1 => msum d2 (fun j2 => msum d3 (fun j3 => bigsum la (fun a => bigsum ra (fun a' =>
    F (j1 ++ j2 ++ j3) * (amp X1 (singles j1) 0 a * amp X3 (singles j3) a' 0 * y (a :: j2 ++ [a'])))))))%K).
  { transitivity (bigsum la (fun a => msum d1 (fun j1 => msum d2 (fun j2 => msum d3 (fun j3 => bigsum ra (fun a' =>
      F (j1 ++ j2 ++ j3) * (amp X1 (singles j1) 0 a * amp X3 (singles j3) a' 0 * y (a :: j2 ++ [a'])))))))%K).
    - apply bigsum_ext. intros a _. symmetry. rewrite msum_swap. apply msum_ext. intros j2 _. symmetry.
      rewrite <- msum_bigsum_swap. apply msum_ext. intros j1 _. rewrite <- msum_bigsum_swap. reflexivity.
    - rewrite <- msum_bigsum_swap. apply msum_ext. intros j1 _. rewrite <- msum_bigsum_swap. apply msum_ext. intros j2 _.
      rewrite <- msum_bigsum_swap. reflexivity. }
  apply msum_ext. intros j1 _. apply msum_ext. intros j2 _. apply msum_ext. intros j3 _. unfold psi_of.
  rewrite <- bigsum_mul_l. apply bigsum_ext. intros a _. rewrite <- bigsum_mul_l. reflexivity.
Qed.

Lemma lop_quad d1 d2 d3 la ra X1 X3 M (x y : list nat -> K) (px py : list nat -> K) : let sh := la :: d2 ++ [ra] in
  (forall i1 i2 i3, inr i1 d1 -> inr i2 d2 -> inr i3 d3 -> px (i1 ++ i2 ++ i3) = psi_of X1 X3 la ra x i1 i2 i3) ->
  (forall i1 i2 i3, inr i1 d1 -> inr i2 d2 -> inr i3 d3 -> py (i1 ++ i2 ++ i3) = psi_of X1 X3 la ra y i1 i2 i3) ->
  msum sh (fun r => msum sh (fun c => kconj (x r) * get (lop d1 d2 d3 la ra X1 X3 M) [ravel sh r; ravel sh c] * y c))%K =
  melem (d1 ++ d2 ++ d3) (d1 ++ d2 ++ d3) M px py.
Proof.
  intros sh Ex Ey. unfold melem.
  set (G := fun is => msum d1 (fun j1 => msum d2 (fun j2 => msum d3 (fun j3 => M is (j1 ++ j2 ++ j3) * psi_of X1 X3 la ra y j1 j2 j3)))%K).
  transitivity (msum sh (fun r => kconj (x r * msum d1 (fun i1 => msum d3 (fun i3 =>
    kconj (G (i1 ++ mid r ++ i3)) * (amp X1 (singles i1) 0 (hd0 r) * amp X3 (singles i3) (last0 r) 0)))))%K).
  { apply msum_ext. intros r Hr.
    transitivity (kconj (x r) * msum sh (fun c => y c * kern d1 d3 X1 X3 M r c))%K.
    { rewrite <- msum_mul_l. apply msum_ext. intros c Hc. rewrite get_lop by assumption. ring. }
    rewrite (kconj_mul K). f_equal.
    transitivity (msum d1 (fun i1 => msum d3 (fun i3 => G (i1 ++ mid r ++ i3) *
      kconj (amp X1 (singles i1) 0 (hd0 r) * amp X3 (singles i3) (last0 r) 0)))%K).
    - transitivity (msum d1 (fun i1 => msum d3 (fun i3 => msum sh (fun c => y c * msum d1 (fun j1 => msum d3 (fun j3 =>
         M (i1 ++ mid r ++ i3) (j1 ++ mid c ++ j3) * (amp X1 (singles j1) 0 (hd0 c) * amp X3 (singles j3) (last0 c) 0)))) *
         kconj (amp X1 (singles i1) 0 (hd0 r) * amp X3 (singles i3) (last0 r) 0)))%K).
      + symmetry. transitivity (msum d1 (fun i1 => msum d3 (fun i3 => msum sh (fun c => y c * msum d1 (fun j1 => msum d3 (fun j3 =>
           M (i1 ++ mid r ++ i3) (j1 ++ mid c ++ j3) * (amp X1 (singles j1) 0 (hd0 c) * amp X3 (singles j3) (last0 c) 0) *
           kconj (amp X1 (singles i1) 0 (hd0 r) * amp X3 (singles i3) (last0 r) 0))))))%K).
        * apply msum_ext. intros i1 _. apply msum_ext. intros i3 _. rewrite <- msum_mul_r. apply msum_ext. intros c _.
          transitivity (y c * (msum d1 (fun j1 => msum d3 (fun j3 => M (i1 ++ mid r ++ i3) (j1 ++ mid c ++ j3) *
            (amp X1 (singles j1) 0 (hd0 c) * amp X3 (singles j3) (last0 c) 0))) *
            kconj (amp X1 (singles i1) 0 (hd0 r) * amp X3 (singles i3) (last0 r) 0)))%K; [ring|].
          f_equal. rewrite <- msum_mul_r. apply msum_ext. intros j1 _. rewrite <- msum_mul_r. reflexivity.
        * symmetry. unfold kern.
          transitivity (msum sh (fun c => msum d1 (fun i1 => msum d3 (fun i3 => y c * msum d1 (fun j1 => msum d3 (fun j3 =>
            M (i1 ++ mid r ++ i3) (j1 ++ mid c ++ j3) * (amp X1 (singles j1) 0 (hd0 c) * amp X3 (singles j3) (last0 c) 0) *
            kconj (amp X1 (singles i1) 0 (hd0 r) * amp X3 (singles i3) (last0 r) 0))))))%K).
          { apply msum_ext. intros c _. rewrite <- msum_mul_l. apply msum_ext. intros i1 _. rewrite <- msum_mul_l. reflexivity. }
          rewrite msum_swap. apply msum_ext. intros i1 _. apply msum_swap.
      + apply msum_ext. intros i1 _. apply msum_ext. intros i3 _. f_equal. apply (psi_sum d1 d2 d3 la ra X1 X3 y (M (i1 ++ mid r ++ i3))).
    - rewrite msum_conj. apply msum_ext. intros i1 _. rewrite msum_conj. apply msum_ext. intros i3 _.
      rewrite (kconj_mul K (kconj _)), (kconj_invol K). reflexivity. }
  rewrite <- msum_conj. etransitivity; [apply (f_equal kconj); exact (psi_sum d1 d2 d3 la ra X1 X3 x (fun is => kconj (G is)))|].
  rewrite msum_app, msum_conj. apply msum_ext. intros i1 H1. rewrite msum_app, msum_conj. apply msum_ext. intros i2 H2.
  rewrite msum_conj. apply msum_ext. intros i3 H3. rewrite (kconj_mul K), (kconj_invol K), <- Ex by assumption.
  unfold G. rewrite <- msum_mul_r, msum_app. apply msum_ext. intros j1 G1.
  rewrite <- msum_mul_r, msum_app. apply msum_ext. intros j2 G2. rewrite <- msum_mul_r. apply msum_ext. intros j3 G3.
  rewrite <- Ey by assumption. ring.
Qed.

(** ** The operator of [eig] *)
Lemma local_op_lop (W1 W2 W3 X1 X3 : list (nd K)) d1 d2 d3 lw rw la ra lv rv :
  W2 <> [] -> mpo_like W1 d1 d1 -> mpo_like W2 d2 d2 -> mpo_like W3 d3 d3 ->
  bonds W1 1 lw -> bonds W2 lw rw -> bonds W3 rw 1 ->
  mps_like X1 d1 -> mps_like X3 d3 -> bonds X1 1 la -> bonds X3 ra 1 -> 0 < la * size d2 * ra ->
  shp lv = [la; lw; la] -> shp rv = [ra; rw; ra] ->
  (forall y, inr y (shp lv) -> get lv y = env3 d1 d1 W1 X1 X1 [0; 0; 0] y) ->
  (forall x, inr x (shp rv) -> get rv x = env3 d3 d3 W3 X3 X3 x [0; 0; 0]) ->
  eig_local_op lv W2 rv = Ok (lop d1 d2 d3 la ra X1 X3 (fun is js => amp (W1 ++ W2 ++ W3) (pairs is js) 0 0)).
Proof.
  intros N2 M1 M2 M3 B1 B2 B3 P1 P3 BX1 BX3 Pos Sl Sr Gl Gr.
  destruct (local_op_entries lv W2 rv d2 d2 lw rw la la ra ra N2 M2 B2 Sl Sr Pos) as (op & E & Wo & So & G).
  rewrite E. f_equal. apply lop_eq; auto. intros b is b' a js a' Hb Hi Hb' Ha Hj Ha'. rewrite G by assumption.
  rewrite Sl in Gl. rewrite Sr in Gr.
  transitivity (bigsum rw (fun w' => bigsum lw (fun w => msum d1 (fun i1 => msum d3 (fun i3 => msum d1 (fun j1 => msum d3 (fun j3 =>
    amp W1 (pairs i1 j1) 0 w * amp W2 (pairs is js) w w' * amp W3 (pairs i3 j3) w' 0 *
    (amp X1 (singles j1) 0 a * amp X3 (singles j3) a' 0) *
    kconj (amp X1 (singles i1) 0 b * amp X3 (singles i3) b' 0)))))))%K).
  { apply bigsum_ext. intros w' Hw'. rewrite <- bigsum_mul_r. apply bigsum_ext. intros w Hw.
    rewrite Gl, Gr by (repeat (apply inr_cons; [lia|]); constructor). unfold env3, b3. cbn [nth].
    transitivity (msum d1 (fun i1 => msum d1 (fun j1 => amp X1 (singles j1) 0 a * amp W1 (pairs i1 j1) 0 w * kconj (amp X1 (singles i1) 0 b))) *
      (amp W2 (pairs is js) w w' * msum d3 (fun i3 => msum d3 (fun j3 => amp X3 (singles j3) a' 0 * amp W3 (pairs i3 j3) w' 0 * kconj (amp X3 (singles i3) b' 0)))))%K; [ring|].
    rewrite <- msum_mul_r. apply msum_ext. intros i1 _.
    transitivity (msum d3 (fun i3 => msum d1 (fun j1 => amp X1 (singles j1) 0 a * amp W1 (pairs i1 j1) 0 w * kconj (amp X1 (singles i1) 0 b)) *
      (amp W2 (pairs is js) w w' * msum d3 (fun j3 => amp X3 (singles j3) a' 0 * amp W3 (pairs i3 j3) w' 0 * kconj (amp X3 (singles i3) b' 0)))))%K.
    { rewrite !msum_mul_l. reflexivity. }
    apply msum_ext. intros i3 _. rewrite <- msum_mul_r. apply msum_ext. intros j1 _.
    rewrite <- !msum_mul_l. apply msum_ext. intros j3 _. rewrite (kconj_mul K). ring. }
  unfold kern. rewrite !mid_mk, !last_mk. rewrite ?hd_mk.
  transitivity (msum d1 (fun i1 => msum d3 (fun i3 => msum d1 (fun j1 => msum d3 (fun j3 => bigsum rw (fun w' => bigsum lw (fun w => 
    amp W1 (pairs i1 j1) 0 w * amp W2 (pairs is js) w w' * amp W3 (pairs i3 j3) w' 0 *
    (amp X1 (singles j1) 0 a * amp X3 (singles j3) a' 0) *
    kconj (amp X1 (singles i1) 0 b * amp X3 (singles i3) b' 0)))))))%K).
  { transitivity (bigsum rw (fun w' => msum d1 (fun i1 => msum d3 (fun i3 => msum d1 (fun j1 => msum d3 (fun j3 => bigsum lw (fun w => 
      amp W1 (pairs i1 j1) 0 w * amp W2 (pairs is js) w w' * amp W3 (pairs i3 j3) w' 0 *
      (amp X1 (singles j1) 0 a * amp X3 (singles j3) a' 0) *
      kconj (amp X1 (singles i1) 0 b * amp X3 (singles i3) b' 0)))))))%K).
    - apply bigsum_ext. intros w' _. rewrite <- msum_bigsum_swap. apply msum_ext. intros i1 _. rewrite <- msum_bigsum_swap. apply msum_ext. intros i3 _.
      rewrite <- msum_bigsum_swap. apply msum_ext. intros j1 _. rewrite <- msum_bigsum_swap. reflexivity.
    - rewrite <- msum_bigsum_swap. apply msum_ext. intros i1 _. rewrite <- msum_bigsum_swap. apply msum_ext. intros i3 _.
      rewrite <- msum_bigsum_swap. apply msum_ext. intros j1 _. rewrite <- msum_bigsum_swap. reflexivity. }
  apply msum_ext. intros i1 H1. apply msum_ext. intros i3 H3. apply msum_ext. intros j1 G1. apply msum_ext. intros j3 G3.
  pose proof (mpo_like_length _ _ _ M1) as L1. pose proof (mpo_like_length _ _ _ M2) as L2.
  apply inr_length in H1. apply inr_length in G1. apply inr_length in Hi. apply inr_length in Hj.
  rewrite !pairs_app by lia.
  rewrite (amp_app W1 (W2 ++ W3) (pairs i1 j1) _ 0 0 1 lw); [|rewrite pairs_length; lia|exact B1|lia].
  rewrite <- !bigsum_mul_r.
  transitivity (bigsum lw (fun w => bigsum rw (fun w' => amp W1 (pairs i1 j1) 0 w * amp W2 (pairs is js) w w' * amp W3 (pairs i3 j3) w' 0 *
    (amp X1 (singles j1) 0 a * amp X3 (singles j3) a' 0) * kconj (amp X1 (singles i1) 0 b * amp X3 (singles i3) b' 0)))%K); [apply bigsum_swap|].
  apply bigsum_ext. intros w Hw.
  rewrite (amp_app W2 W3 (pairs is js) _ w 0 lw rw); [|rewrite pairs_length; lia|exact B2|lia].
  rewrite <- bigsum_mul_l, <- !bigsum_mul_r. apply bigsum_ext. intros w' Hw'. ring.
Qed.

(** The state with another window. *)
Lemma psi_window (X1 ys X3 : list (nd K)) d1 d2 d3 la ra i1 i2 i3 :
  ys <> [] -> mps_like X1 d1 -> mps_like ys d2 -> mps_like X3 d3 -> bonds X1 1 la -> bonds ys la ra -> bonds X3 ra 1 ->
  inr i1 d1 -> inr i2 d2 -> inr i3 d3 ->
  amp (X1 ++ ys ++ X3) (singles (i1 ++ i2 ++ i3)) 0 0 =
  psi_of X1 X3 la ra (get (ltens_to_array ys)) i1 i2 i3.
Proof.
  intros Ny P1 P2 P3 B1 B2 B3 H1 H2 H3.
  pose proof (mps_like_length _ _ P1) as L1. pose proof (mps_like_length _ _ P2) as L2.
  pose proof (inr_length _ _ H1) as I1. pose proof (inr_length _ _ H2) as I2.
  rewrite !singles_app. rewrite (amp_app X1 (ys ++ X3) _ _ 0 0 1 la); [|rewrite singles_length; lia|exact B1|lia].
  unfold psi_of. apply bigsum_ext. intros a Ha.
  rewrite (amp_app ys X3 _ _ a 0 la ra); [|rewrite singles_length; lia|exact B2|lia].
  rewrite <- bigsum_mul_l. apply bigsum_ext. intros a' Ha'.
  destruct (ltens_to_array_spec ys la ra Ny B2) as (_ & _ & _ & _ & A).
  assert (V : idx_ok (singles i2) ys) by (unfold idx_ok; rewrite P2; apply singles_valid; exact H2).
  specialize (A a (singles i2) a' Ha V Ha'). unfold ent in A.
  replace (concat (singles i2)) with i2 in A; [rewrite A; ring|].
  clear. induction i2 as [|i i2 IH]; [reflexivity|]. cbn. f_equal. exact IH.
Qed.
End Lop.
