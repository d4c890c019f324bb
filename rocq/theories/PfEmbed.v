(** embed_slice, regular_slices and local_sum (mparray.py 1569-1775). *)
From Verif Require Export PfBlock.

Section Embed.
Context {K : StarRing}.
Add Ring Kr : (k_ring K).

(** ** The embedding tensor *)
Definition embed_tensor (x : ltens K) (emb : option (nd K)) (e : nd K) : Prop :=
  match emb with
  | Some e' => e = e'
  | None => exists d rest, mshape x = [d; d] :: rest /\ e = eye d
  end.
Lemma embed_tensor_ok x emb e : embed_tensor x emb e -> embed_ltens_identity x emb = Ok (add_virt e).
Proof.
  unfold embed_tensor, embed_ltens_identity. destruct emb as [e'|]; [intros ->; reflexivity|].
  intros [d [rest [E ->]]]. rewrite E, Nat.eqb_refl. reflexivity.
Qed.
(** Without an explicit tensor, the first site must be a square matrix. *)
Lemma embed_tensor_error (x : ltens K) : (forall d rest, mshape x <> [d; d] :: rest) -> embed_ltens_identity x None = Err AssertionError.
Proof.
  intros H. unfold embed_ltens_identity. destruct (mshape x) as [|[|d1 [|d2 [|d3 r]]] l] eqn:E; try reflexivity.
  destruct (Nat.eqb_spec d1 d2) as [->|]; [exfalso; apply (H d2 l); reflexivity|reflexivity].
Qed.

(** ** regular_slices *)
Theorem regular_slices_spec (length width offset : Z) :
  (0 < offset)%Z -> (width <= length)%Z -> ((length - width) mod offset = 0)%Z ->
  exists sl, regular_slices length width offset = Ok sl /\
    (forall k, k < List.length sl -> nth k sl (0, 0)%Z = (offset * Z.of_nat k, offset * Z.of_nat k + width)%Z) /\
    (Z.of_nat (List.length sl) = (length - width) / offset + 1)%Z /\
    fst (nth 0 sl (0, 0)%Z) = 0%Z /\ snd (List.last sl (0, 0)%Z) = length.
Proof.
  intros Ho Hw Hm. unfold regular_slices. rewrite (proj2 (Z.eqb_neq offset 0)) by lia. rewrite Hm, Z.eqb_refl. cbn [passert].
  set (q := ((length - width) / offset)%Z). assert (Hq : (0 <= q)%Z) by (apply Z.div_pos; lia).
  assert (Eq : (length - width = offset * q)%Z) by (unfold q; apply Z.div_exact; lia).
  set (f := fun i => (offset * Z.of_nat i, offset * Z.of_nat i + width)%Z).
  assert (El : Z.to_nat (q + 1) = S (Z.to_nat q)) by lia.
  exists (map f (seq 0 (Z.to_nat (q + 1)))). split; [reflexivity|]. rewrite map_length, seq_length. split; [|split; [lia|split]].
  - intros k Hk. rewrite (map_nth_lt _ _ f (seq 0 (Z.to_nat (q + 1))) k 0) by (rewrite seq_length; exact Hk). rewrite seq_nth by exact Hk. reflexivity.
  - rewrite El. cbn. lia.
  - rewrite El, seq_S, map_app. cbn [map]. rewrite last_last. cbn. lia.
Qed.
Theorem regular_slices_uncovered (length width offset : Z) :
  offset <> 0%Z -> ((length - width) mod offset <> 0)%Z -> regular_slices length width offset = Err AssertionError.
Proof.
  intros Ho Hm. unfold regular_slices. rewrite (proj2 (Z.eqb_neq offset 0)) by lia. rewrite (proj2 (Z.eqb_neq _ 0)) by exact Hm. reflexivity.
Qed.

(** ** Products of rank-one sites *)
Lemma bonds_rep (e : nd K) n : ndwf e -> bonds (repeat (add_virt e) n) 1 1.
Proof.
  intros H. induction n as [|n IH]; [reflexivity|]. cbn [repeat bonds]. destruct (add_virt_ok e H) as [A [B [C _]]].
  rewrite C. auto.
Qed.
Lemma amp_rep (e : nd K) is : ndwf e -> Forall (fun i => inr i (shp e)) is -> amp (repeat (add_virt e) (length is)) is 0 0 = kprod (map (get e) is).
Proof.
  intros H HF. induction HF as [|i is Hi HF IH]; [reflexivity|]. cbn [length repeat amp map kprod fold_right].
  destruct (add_virt_ok e H) as [_ [_ [C _]]]. rewrite C, bigsum_1, IH, ent_add_virt by exact Hi. reflexivity.
Qed.
Lemma map_rep (A B : Type) (f : A -> B) x n : map f (repeat x n) = repeat (f x) n.
Proof. induction n as [|n IH]; [reflexivity|]. cbn. rewrite IH. reflexivity. Qed.
Lemma pdims_rep (e : nd K) n : ndwf e -> map pdims (repeat (add_virt e) n) = repeat (shp e) n.
Proof. intros H. rewrite map_rep. destruct (add_virt_ok e H) as [_ [_ [_ D]]]. rewrite D. reflexivity. Qed.

Lemma idx_rep is p n : Forall2 inr is (repeat p n) -> length is = n /\ Forall (fun i => inr i p) is.
Proof.
  revert is; induction n as [|n IH]; intros is H; cbn in H; inversion H as [|i ? is' ? Hi His]; subst; [split; [reflexivity|constructor]|].
  destruct (IH is' His) as [H1 H2]. split; [cbn; lia|constructor; assumption].
Qed.

(** ** embed_slice *)
Lemma slice_nat a b n : a <= b -> b <= n -> slice_indices (mkSlice (Some (Z.of_nat a)) (Some (Z.of_nat b)) None) n = Ok (Z.of_nat a, Z.of_nat b, 1%Z).
Proof.
  intros H1 H2. unfold slice_indices. cbn [s_start s_stop s_step]. change (1 =? 0)%Z with false. change (1 <? 0)%Z with false. cbv iota zeta.
  rewrite !(proj2 (Z.ltb_ge _ 0)) by lia. rewrite !Z.min_l by lia. reflexivity.
Qed.

Theorem embed_slice_spec (x : ltens K) emb e (n start : nat) :
  mpa_ok x -> embed_tensor x emb e -> ndwf e -> start + llen x <= n ->
  exists z, embed_slice n (mkSlice (Some (Z.of_nat start)) (Some (Z.of_nat (start + llen x))) None) x emb = Ok z /\ mpa_ok z /\
    mshape z = repeat (shp e) start ++ mshape x ++ repeat (shp e) (n - (start + llen x)) /\
    lcan z = 0%Z /\ rcan z = Z.of_nat n /\
    forall i1 i2 i3, Forall2 inr i1 (repeat (shp e) start) -> Forall2 inr i2 (mshape x) ->
      Forall2 inr i3 (repeat (shp e) (n - (start + llen x))) ->
      amp (lts z) (i1 ++ i2 ++ i3) 0 0 = (kprod (map (get e) i1) * amp (lts x) i2 0 0 * kprod (map (get e) i3))%K.
Proof.
  intros [Hx Bx] He We Hn. unfold embed_slice. rewrite slice_nat by lia. cbn [bind]. cbn [passert Z.eqb Pos.eqb].
  rewrite (proj2 (Z.eqb_eq _ _)) by lia. cbn [passert]. rewrite (embed_tensor_ok x emb e He). cbn [bind].
  rewrite Nat2Z.id. replace (Z.to_nat (Z.of_nat n - Z.of_nat (start + llen x))) with (n - (start + llen x)) by lia.
  set (m := n - (start + llen x)). set (us := repeat (add_virt e) start ++ lts x ++ repeat (add_virt e) m).
  assert (Bu : bonds us 1 1).
  { apply bonds_app. exists 1. split; [apply bonds_rep; exact We|]. apply bonds_app. exists 1. split; [exact Bx|apply bonds_rep; exact We]. }
  assert (Nu : us <> []).
  { unfold us. intros E. apply app_eq_nil in E. destruct E as [_ E]. apply app_eq_nil in E. tauto. }
  destruct (mpa_new_chain us Nu Bu) as [z [Ez [Oz [Lz [C1 C2]]]]]. exists z. split; [exact Ez|]. split; [exact Oz|].
  split; [unfold mshape; rewrite Lz; unfold us; rewrite !map_app, !pdims_rep by exact We; reflexivity|].
  split; [exact C1|]. split.
  - rewrite C2. unfold us. rewrite !app_length, !repeat_length. unfold m, llen in *. f_equal. lia.
  - intros i1 i2 i3 H1 H2 H3. rewrite Lz. unfold us. destruct (idx_rep _ _ _ H1) as [L1 F1]. destruct (idx_rep _ _ _ H3) as [L3 F3].
    rewrite <- L1, <- L3. rewrite (amp_app _ _ _ _ _ _ 1 1); [|rewrite repeat_length; reflexivity|apply bonds_rep; exact We|lia].
    rewrite bigsum_1. rewrite (amp_app (lts x) _ _ _ _ _ 1 1); [|rewrite (Forall2_len _ _ _ _ _ H2); apply map_length|exact Bx|lia].
    rewrite bigsum_1, !amp_rep by assumption. ring.
Qed.

Theorem embed_slice_wrong_width (x : ltens K) emb (n : nat) (a b : nat) :
  a <= b -> b <= n -> llen x <> b - a ->
  embed_slice n (mkSlice (Some (Z.of_nat a)) (Some (Z.of_nat b)) None) x emb = Err AssertionError.
Proof.
  intros H1 H2 H3. unfold embed_slice. rewrite slice_nat by lia. cbn [bind]. cbn [passert Z.eqb Pos.eqb].
  rewrite (proj2 (Z.eqb_neq _ _)) by lia. reflexivity.
Qed.

(** ** Vectors on the bonds *)
Definition mvl (t : nd K) (i : list nat) (v : list K) : list K :=
  map (fun a => bigsum (rdim t) (fun b => ent t a i b * nth b v k0)%K) (seq 0 (ldim t)).
Lemma mvl_length t i v : length (mvl t i v) = ldim t.
Proof. unfold mvl. rewrite map_length, seq_length. reflexivity. Qed.
Lemma mvl_nth t i v a : a < ldim t -> nth a (mvl t i v) k0 = bigsum (rdim t) (fun b => ent t a i b * nth b v k0)%K.
Proof. intros H. unfold mvl. rewrite (map_nth_lt _ _ _ (seq 0 (ldim t)) a 0) by (rewrite seq_length; exact H). rewrite seq_nth by exact H. reflexivity. Qed.
Lemma mvl_eq t i v u : length u = ldim t -> (forall a, a < ldim t -> nth a u k0 = bigsum (rdim t) (fun b => ent t a i b * nth b v k0)%K) -> mvl t i v = u.
Proof.
  intros Hl H. apply (nth_ext _ _ k0 k0); [rewrite mvl_length; auto|]. intros a Ha. rewrite mvl_length in Ha. rewrite mvl_nth by exact Ha. symmetry. apply H. exact Ha.
Qed.


Lemma mvl_scale t i v c : mvl t i (map (fun x => x * c)%K v) = map (fun x => x * c)%K (mvl t i v).
Proof.
  apply mvl_eq; [rewrite map_length, mvl_length; reflexivity|]. intros a Ha.
  rewrite (map_nth_lt _ _ (fun x => x * c)%K _ a k0) by (rewrite mvl_length; exact Ha). rewrite mvl_nth, <- bigsum_mul_r by exact Ha.
  apply bigsum_ext. intros b Hb. destruct (Nat.lt_ge_cases b (length v)) as [H|H].
  - rewrite (map_nth_lt _ _ (fun x => x * c)%K _ b k0) by exact H. ring.
  - rewrite !nth_overflow by (rewrite ?map_length; exact H). ring.
Qed.

(** [t] maps the vector [v] on its right bond to [u] on its left bond. *)
Definition acts (p i : list nat) (t : nd K) (v u : list K) : Prop :=
  lt_ok t /\ pdims t = p /\ rdim t = length v /\ mvl t i v = u.
Lemma acts_ldim p i t v u : acts p i t v u -> ldim t = length u.
Proof. intros [_ [_ [_ <-]]]. symmetry. apply mvl_length. Qed.

Lemma nth_app_l (l m : list K) k : k < length l -> nth k (l ++ m) k0 = nth k l k0.
Proof. intros H. apply app_nth1. exact H. Qed.
Lemma nth_app_r (l m : list K) k : nth (length l + k) (l ++ m) k0 = nth k m k0.
Proof. rewrite app_nth2 by lia. f_equal. lia. Qed.

Lemma nth_concat_off (us : list (list K)) j a : j < length us -> a < length (nth j us []) ->
  nth (off (map (@length K) us) j + a) (concat us) k0 = nth a (nth j us []) k0.
Proof.
  revert j; induction us as [|u us IH]; intros j Hj Ha; [cbn in Hj; lia|]. cbn [concat map]. destruct j as [|j].
  - rewrite off_0. cbn [nth] in *. apply nth_app_l. exact Ha.
  - rewrite off_S. cbn [nth] in *. rewrite <- Nat.add_assoc, nth_app_r. apply IH; [cbn in Hj; lia|exact Ha].
Qed.
Lemma concat_length_sum (us : list (list K)) : length (concat us) = list_sum (map (@length K) us).
Proof. induction us as [|u us IH]; [reflexivity|]. cbn [concat map]. rewrite app_length, IH. reflexivity. Qed.

Lemma acts_lens p i ts vs us : Forall3 (acts p i) ts vs us ->
  length vs = length ts /\ length us = length ts /\ fam p ts /\ map rdim ts = map (@length K) vs /\ map ldim ts = map (@length K) us.
Proof.
  induction 1 as [|t v u ts vs us H HF IH]; [repeat split; constructor|]. destruct IH as [A [B [C [D E]]]].
  cbn [length map]. split; [lia|]. split; [lia|]. split; [constructor; [split; apply H|exact C]|]. rewrite D, E, (acts_ldim _ _ _ _ _ H).
  destruct H as [_ [_ [-> _]]]. auto.
Qed.
Lemma acts_nth p i ts vs us j : Forall3 (acts p i) ts vs us -> j < length ts -> acts p i (nth j ts dummy) (nth j vs []) (nth j us []).
Proof.
  intros H; revert j; induction H as [|t v u ts vs us H HF IH]; intros j Hj; [cbn in Hj; lia|].
  destruct j; [exact H|]. cbn [nth]. apply IH. cbn in Hj; lia.
Qed.

(** Direct sum. *)
Lemma acts_block p i ts vs us : ts <> [] -> inr i p -> Forall3 (acts p i) ts vs us ->
  exists T, block_diag_py ts [0; ndim (hd dummy ts) - 1] = Ok T /\ acts p i T (concat vs) (concat us).
Proof.
  intros Hne Hi H. destruct (acts_lens _ _ _ _ _ H) as [Lv [Lu [HF [ER EL]]]].
  destruct (local_add_spec p ts Hne HF) as [T [E [OT [LT [RT [PT ET]]]]]].
  destruct (block_diag_local_add p ts Hne HF) as [T' [E1 E2]]. rewrite E in E1. injection E1 as <-. exists T. split; [exact E2|].
  split; [exact OT|]. split; [exact PT|]. split; [rewrite RT, ER; symmetry; apply concat_length_sum|].
  apply mvl_eq; [rewrite LT, EL; apply concat_length_sum|]. intros a Ha. rewrite LT in Ha.
  destruct (off_split (map ldim ts) a Ha) as [j [a' [Hj [Ha' ->]]]]. rewrite map_length in Hj. rewrite (map_nth_lt _ _ ldim ts j dummy) in Ha' by exact Hj.
  pose proof (acts_nth _ _ _ _ _ j H Hj) as Aj. rewrite EL at 1. rewrite nth_concat_off; [|lia|rewrite <- (acts_ldim _ _ _ _ _ Aj); exact Ha'].
  rewrite RT, bigsum_blocks. rewrite map_length. rewrite (bigsum_single _ j).
  - destruct Aj as [_ [_ [Rj Mj]]]. rewrite <- Mj at 1. rewrite mvl_nth by exact Ha'. rewrite (map_nth_lt _ _ rdim ts j dummy) by exact Hj.
    apply bigsum_ext. intros b Hb. rewrite ET by assumption. rewrite Nat.eqb_refl. f_equal. rewrite ER. symmetry. apply nth_concat_off; [lia|]. rewrite <- Rj. exact Hb.
  - exact Hj.
  - intros k Hk Hkj. apply bigsum_zero. intros b Hb. rewrite (map_nth_lt _ _ rdim ts k dummy) in Hb by exact Hk. rewrite ET by assumption.
    rewrite (proj2 (Nat.eqb_neq j k)) by auto. ring.
Qed.

Lemma fam2 p (t u : nd K) : lt_ok t -> lt_ok u -> pdims t = p -> pdims u = p -> fam p [t; u].
Proof. intros. constructor; [split; assumption|]. constructor; [split; assumption|]. constructor. Qed.

(** Stacking on the left bond. *)
Lemma acts_cat_first p i t u v w1 w2 : inr i p -> acts p i t v w1 -> acts p i u v w2 ->
  exists T, cat_first_py [t; u] = Ok T /\ acts p i T v (w1 ++ w2).
Proof.
  intros Hi A1 A2. assert (L1 := acts_ldim _ _ _ _ _ A1). assert (L2 := acts_ldim _ _ _ _ _ A2).
  destruct A1 as [O1 [P1 [R1 M1]]], A2 as [O2 [P2 [R2 M2]]].
  destruct (cat_first_spec p [t; u] (length v)) as [T [E [OT [LT [RT [PT ET]]]]]]; [discriminate|apply fam2; assumption|repeat constructor; assumption|].
  exists T. split; [exact E|]. split; [exact OT|]. split; [exact PT|]. split; [exact RT|].
  cbn in LT. rewrite Nat.add_0_r in LT. apply mvl_eq; [rewrite app_length; lia|]. intros a Ha. rewrite LT in Ha. rewrite RT.
  destruct (Nat.lt_ge_cases a (length w1)) as [H|H].
  - rewrite nth_app_l by exact H. rewrite <- M1 at 1. rewrite mvl_nth, R1 by lia. apply bigsum_ext. intros b Hb.
    specialize (ET 0 a i b). cbn [nth] in ET. rewrite off_0 in ET. cbn [Nat.add] in ET. rewrite ET by (try assumption; cbn; lia). reflexivity.
  - replace a with (length w1 + (a - length w1)) by lia. rewrite nth_app_r. rewrite <- M2 at 1. rewrite mvl_nth, R2 by lia. apply bigsum_ext. intros b Hb.
    specialize (ET 1 (a - length w1) i b). cbn [map] in ET. rewrite off_S, off_0, L1 in ET. cbn [nth] in ET. rewrite Nat.add_0_r in ET.
    rewrite ET by (try assumption; cbn; lia). reflexivity.
Qed.

(** Placing side by side adds the results. *)
Lemma acts_cat_last p i t u v1 v2 w1 w2 : inr i p -> length w1 = length w2 -> acts p i t v1 w1 -> acts p i u v2 w2 ->
  exists T, cat_last_py [t; u] = Ok T /\ acts p i T (v1 ++ v2) (zip2 kadd w1 w2).
Proof.
  intros Hi Lw A1 A2. assert (L1 := acts_ldim _ _ _ _ _ A1). assert (L2 := acts_ldim _ _ _ _ _ A2).
  destruct A1 as [O1 [P1 [R1 M1]]], A2 as [O2 [P2 [R2 M2]]].
  destruct (cat_last_spec p [t; u] (length w1)) as [T [E [OT [LT [RT [PT ET]]]]]]; [discriminate|apply fam2; assumption|repeat constructor; [exact L1|rewrite L2; auto]|].
  exists T. split; [exact E|]. split; [exact OT|]. split; [exact PT|].
  cbn in RT. rewrite Nat.add_0_r in RT. split; [rewrite RT, app_length; lia|].
  apply mvl_eq; [rewrite zip2_length by exact Lw; auto|]. intros a Ha. rewrite LT in Ha. rewrite RT.
  rewrite bigsum_split.
  assert (Z : nth a (zip2 kadd w1 w2) k0 = (nth a w1 k0 + nth a w2 k0)%K).
  { clear -Lw Ha. revert w2 a Lw Ha; induction w1 as [|x w1 IH]; intros [|y w2] a Lw Ha; cbn in *; try lia. destruct a; [reflexivity|]. apply IH; lia. }
  rewrite Z. f_equal.
  - rewrite <- M1 at 1. rewrite mvl_nth by lia. apply bigsum_ext. intros b Hb. rewrite nth_app_l by lia.
    specialize (ET 0 a i b). cbn [nth] in ET. rewrite off_0 in ET. cbn [Nat.add] in ET. rewrite ET by (try assumption; cbn; lia). reflexivity.
  - rewrite <- M2 at 1. rewrite mvl_nth by lia. apply bigsum_ext. intros b Hb. rewrite R1, nth_app_r. rewrite <- R1.
    specialize (ET 1 a i b). cbn [map] in ET. rewrite off_S, off_0 in ET. cbn [nth] in ET. rewrite Nat.add_0_r in ET.
    rewrite ET by (try assumption; cbn; lia). reflexivity.
Qed.

(** Vector on the left bond of a chain that ends in rank one. *)
Fixpoint vec (ts : list (nd K)) (is : list (list nat)) : list K :=
  match ts, is with
  | t :: ts', i :: is' => mvl t i (vec ts' is')
  | _, _ => [k1]
  end.
Lemma vec_spec ts is l : bonds ts l 1 -> length is = length ts ->
  length (vec ts is) = l /\ forall a, a < l -> nth a (vec ts is) k0 = amp ts is a 0.
Proof.
  revert is l; induction ts as [|t ts IH]; intros is l Hb Hl.
  - cbn in Hb. subst l. split; [reflexivity|]. intros a Ha. replace a with 0 by lia. cbn [vec amp nth]. rewrite delta_eq. reflexivity.
  - destruct is as [|i is]; [discriminate|]. destruct Hb as [Ht [El Hb]]. destruct (IH is (rdim t) Hb ltac:(cbn in Hl; lia)) as [I1 I2].
    cbn [vec]. split; [rewrite mvl_length; exact El|]. intros a Ha. rewrite mvl_nth by lia. cbn [amp]. apply bigsum_ext. intros c Hc. rewrite I2 by exact Hc. reflexivity.
Qed.

(** ** Families of vectors *)
(** A bond vector for every multi-index, together with its length. *)
Definition bvec : Type := (nat * (list (list nat) -> list K))%type.
Definition bcat (vs : list bvec) : bvec := (list_sum (map fst vs), fun is => concat (map (fun v => snd v is) vs)).
Definition facts (N : nat) (p : list nat) (k : nat) (t : nd K) (v u : bvec) : Prop :=
  lt_ok t /\ pdims t = p /\ rdim t = fst v /\ ldim t = fst u /\
  forall is, Forall2 inr is (repeat p N) -> length (snd v is) = fst v /\ mvl t (nth k is []) (snd v is) = snd u is.

Lemma rep_nth N p is k : Forall2 inr is (repeat p N) -> k < N -> inr (nth k is []) p.
Proof.
  intros H Hk. destruct (idx_rep _ _ _ H) as [L F]. rewrite Forall_forall in F. apply F. apply nth_In. lia.
Qed.

Lemma facts_acts N p k t v u is : facts N p k t v u -> Forall2 inr is (repeat p N) -> acts p (nth k is []) t (snd v is) (snd u is).
Proof. intros [A [B [C [D E]]]] H. destruct (E is H) as [E1 E2]. split; [exact A|]. split; [exact B|]. split; [congruence|exact E2]. Qed.
Lemma facts_mk N p k t v u : lt_ok t -> pdims t = p -> rdim t = fst v -> ldim t = fst u ->
  (forall is, Forall2 inr is (repeat p N) -> acts p (nth k is []) t (snd v is) (snd u is)) -> facts N p k t v u.
Proof.
  intros A B C D E. split; [exact A|]. split; [exact B|]. split; [exact C|]. split; [exact D|]. intros is H. destruct (E is H) as [_ [_ [E1 E2]]]. split; [congruence|exact E2].
Qed.

Lemma facts_block N p k ts vs us : ts <> [] -> k < N -> Forall3 (facts N p k) ts vs us ->
  exists T, block_diag_py ts [0; ndim (hd dummy ts) - 1] = Ok T /\ facts N p k T (bcat vs) (bcat us).
Proof.
  intros Hne Hk H.
  assert (A : fam p ts /\ map rdim ts = map fst vs /\ map ldim ts = map fst us).
  { clear Hne. induction H as [|t v u ts vs us H HF IH]; [repeat split; constructor|]. destruct IH as [I1 [I2 I3]]. destruct H as [B1 [B2 [B3 [B4 _]]]].
    split; [constructor; [split; assumption|exact I1]|]. cbn [map]. rewrite B3, B4, I2, I3. auto. }
  destruct A as [HF [ER EL]]. destruct (local_add_spec p ts Hne HF) as [T [E [OT [LT [RT [PT ET]]]]]].
  destruct (block_diag_local_add p ts Hne HF) as [T' [E1 E2]]. rewrite E in E1. injection E1 as <-. exists T. split; [exact E2|].
  apply facts_mk; auto.
  - rewrite RT, ER. reflexivity.
  - rewrite LT, EL. reflexivity.
  - intros is His. destruct (acts_block p (nth k is []) ts (map (fun v => snd v is) vs) (map (fun u => snd u is) us) Hne) as [T2 [E3 A]].
    + eapply rep_nth; eassumption.
    + clear -H His. induction H as [|t v u ts vs us H HF IH]; constructor; [eapply facts_acts; eassumption|exact IH].
    + rewrite E2 in E3. injection E3 as <-. exact A.
Qed.

Definition bapp (v w : bvec) : bvec := (fst v + fst w, fun is => snd v is ++ snd w is).
Definition badd (v w : bvec) : bvec := (fst v, fun is => zip2 kadd (snd v is) (snd w is)).

Lemma facts_cat_first N p k t u v w1 w2 : k < N -> facts N p k t v w1 -> facts N p k u v w2 ->
  exists T, cat_first_py [t; u] = Ok T /\ facts N p k T v (bapp w1 w2).
Proof.
  intros Hk A1 A2. pose proof A1 as [O1 [P1 [R1 [L1 _]]]]. pose proof A2 as [O2 [P2 [R2 [L2 _]]]].
  destruct (cat_first_spec p [t; u] (fst v)) as [T [E [OT [LT [RT [PT ET]]]]]]; [discriminate|apply fam2; assumption|repeat constructor; assumption|].
  exists T. split; [exact E|]. apply facts_mk; auto.
  - rewrite LT. cbn. lia.
  - intros is His. destruct (acts_cat_first p (nth k is []) t u (snd v is) (snd w1 is) (snd w2 is)) as [T2 [E2 A]].
    + eapply rep_nth; eassumption.
    + eapply facts_acts; eassumption.
    + eapply facts_acts; eassumption.
    + rewrite E in E2. injection E2 as <-. exact A.
Qed.
Lemma facts_cat_last N p k t u v1 v2 w1 w2 : k < N -> facts N p k t v1 w1 -> facts N p k u v2 w2 -> fst w1 = fst w2 ->
  exists T, cat_last_py [t; u] = Ok T /\ facts N p k T (bapp v1 v2) (badd w1 w2).
Proof.
  intros Hk A1 A2 Ew. pose proof A1 as [O1 [P1 [R1 [L1 _]]]]. pose proof A2 as [O2 [P2 [R2 [L2 _]]]].
  destruct (cat_last_spec p [t; u] (fst w1)) as [T [E [OT [LT [RT [PT ET]]]]]]; [discriminate|apply fam2; assumption|repeat constructor; congruence|].
  exists T. split; [exact E|]. apply facts_mk; auto.
  - rewrite RT. cbn. lia.
  - intros is His. assert (B1 := facts_acts _ _ _ _ _ _ is A1 His). assert (B2 := facts_acts _ _ _ _ _ _ is A2 His).
    destruct (acts_cat_last p (nth k is []) t u (snd v1 is) (snd v2 is) (snd w1 is) (snd w2 is)) as [T2 [E2 A]]; auto.
    + eapply rep_nth; eassumption.
    + rewrite <- (acts_ldim _ _ _ _ _ B1), <- (acts_ldim _ _ _ _ _ B2). congruence.
    + rewrite E in E2. injection E2 as <-. exact A.
Qed.
Lemma facts_eq N p k t v v' u u' : facts N p k t v u -> fst v = fst v' -> fst u = fst u' ->
  (forall is, Forall2 inr is (repeat p N) -> snd v is = snd v' is) -> (forall is, Forall2 inr is (repeat p N) -> snd u is = snd u' is) ->
  facts N p k t v' u'.
Proof.
  intros [A [B [C [D E]]]] H1 H2 H3 H4. split; [exact A|]. split; [exact B|]. split; [congruence|]. split; [congruence|].
  intros is His. rewrite <- (H3 is His), <- (H4 is His), <- H1. apply E. exact His.
Qed.

(** ** The automaton of [_local_sum_identity] *)
Section Automaton.
Variables (mpas : list (ltens K)) (e : nd K) (p : list nat) (w n : nat).
Hypothesis Hn : length mpas = n.
Hypothesis Hn0 : 0 < n.
Hypothesis Hw0 : 0 < w.
Hypothesis Hok : Forall mpa_ok mpas.
Hypothesis Hsh : Forall (fun x => mshape x = repeat p w) mpas.
Hypothesis We : ndwf e.
Hypothesis Pe : shp e = p.

Let N := n + w - 1.
Let x i := nth i mpas (mkLt [] 0 0).
Let ok is := Forall2 inr is (repeat p N).
Let bond i j := nth j (map ldim (lts (x i)) ++ [1]) 1.

Definition tail_e (k : nat) (is : list (list nat)) : K := kprod (map (get e) (skipn k is)).
Definition Qv (i k : nat) (is : list (list nat)) : list K :=
  map (fun y => y * tail_e (i + w) is)%K (vec (skipn (k - i) (lts (x i))) (firstn (w - (k - i)) (skipn k is))).
Definition Q (i k : nat) : bvec := (bond i (k - i), Qv i k).
(** Sum of all terms that start at [k] or later. *)
Fixpoint NSd (m k : nat) (is : list (list nat)) : K :=
  match m with
  | O => k0
  | S m' => (nth 0 (Qv k k is) k0 + get e (nth k is []) * NSd m' (S k) is)%K
  end.
Definition NS (k : nat) : bvec := (1, fun is => [NSd (n - k) k is]).
Definition Vs (k : nat) : list bvec :=
  map (fun i => Q i k) (seq (k - w) (Nat.min n k - (k - w))) ++ (if Nat.ltb k n then [NS k] else []).

Lemma x_ok i : i < n -> mpa_ok (x i) /\ mshape (x i) = repeat p w.
Proof.
  intros Hi. unfold x. assert (Hin : In (nth i mpas (mkLt [] 0 0)) mpas) by (apply nth_In; lia).
  rewrite Forall_forall in Hok, Hsh. split; [apply Hok|apply Hsh]; exact Hin.
Qed.
Lemma x_len i : i < n -> length (lts (x i)) = w.
Proof. intros Hi. destruct (x_ok i Hi) as [_ H]. rewrite <- (map_length pdims). fold (mshape (x i)). rewrite H. apply repeat_length. Qed.

Lemma bonds_tail (ts : list (nd K)) l r j : bonds ts l r -> j <= length ts -> bonds (skipn j ts) (nth j (map ldim ts ++ [r]) r) r.
Proof.
  revert l j; induction ts as [|t ts IH]; intros l j Hb Hj.
  - destruct j; [|cbn in Hj; lia]. reflexivity.
  - destruct Hb as [Ht [El Hb]]. destruct j as [|j].
    + cbn. split; [exact Ht|]. split; [reflexivity|exact Hb].
    + cbn [skipn map app nth]. apply (IH (rdim t)); [exact Hb|cbn in Hj; lia].
Qed.

Lemma Q_len i k is : i < n -> i <= k -> k <= i + w -> k <= N -> ok is -> length (Qv i k is) = bond i (k - i).
Proof.
  intros Hi H1 H2 H3 His. unfold Qv. rewrite map_length. destruct (x_ok i Hi) as [[_ Bx] _].
  destruct (idx_rep _ _ _ His) as [Lis _].
  apply (vec_spec (skipn (k - i) (lts (x i))) _ (bond i (k - i))).
  - apply (bonds_tail _ 1 1); [exact Bx|rewrite x_len by exact Hi; lia].
  - rewrite firstn_length, !skipn_length, x_len by exact Hi. unfold N in *. lia.
Qed.

Lemma skipn_nth_cons (A : Type) (l : list A) k d : k < length l -> skipn k l = nth k l d :: skipn (S k) l.
Proof. revert k; induction l as [|y l IH]; intros [|k] H; cbn in *; try lia; [reflexivity|]. apply IH. lia. Qed.

Lemma rdim_next (ts : list (nd K)) l r j : bonds ts l r -> j < length ts -> rdim (nth j ts dummy) = nth (S j) (map ldim ts ++ [r]) r.
Proof.
  revert l j; induction ts as [|t ts IH]; intros l j Hb Hj; [cbn in Hj; lia|]. destruct Hb as [Ht [El Hb]]. destruct j as [|j].
  - cbn [nth map app]. destruct ts as [|u ts]; [cbn in Hb; cbn; exact Hb|]. destruct Hb as [_ [Eu _]]. cbn. symmetry; exact Eu.
  - cbn [nth map app]. apply (IH (rdim t)); [exact Hb|cbn in Hj; lia].
Qed.

Lemma Q_step i k : i < n -> i <= k -> k < i + w -> k < N -> facts N p k (nth (k - i) (lts (x i)) dummy) (Q i (S k)) (Q i k).
Proof.
  intros Hi H1 H2 H3. destruct (x_ok i Hi) as [[_ Bx] Sx]. assert (Lx := x_len i Hi).
  assert (Hj : k - i < length (lts (x i))) by lia.
  assert (Ot : lt_ok (nth (k - i) (lts (x i)) dummy)) by (apply (bonds_in _ _ _ _ Bx); apply nth_In; exact Hj).
  split; [exact Ot|]. split.
  { transitivity (nth (k - i) (mshape (x i)) []); [unfold mshape; symmetry; apply (map_nth_lt _ _ pdims); exact Hj|]. rewrite Sx.
    clear -Hj Lx. rewrite Lx in Hj. revert Hj. generalize (k - i). clear. intros m. revert w; induction m as [|m IH]; intros [|w] H; cbn; try lia; [reflexivity|]. apply IH; lia. }
  split.
  { cbn [fst Q]. unfold bond. rewrite (rdim_next _ 1 1 _ Bx Hj). f_equal. lia. }
  split.
  { cbn [fst Q]. unfold bond. rewrite app_nth1 by (rewrite map_length; exact Hj). symmetry. apply (map_nth_lt _ _ ldim). exact Hj. }
  intros is His. cbn [fst snd Q]. split; [apply Q_len; auto; lia|]. destruct (idx_rep _ _ _ His) as [Lis _].
  unfold Qv. rewrite mvl_scale. f_equal.
  rewrite (skipn_nth_cons _ (lts (x i)) (k - i) dummy) by exact Hj. rewrite (skipn_nth_cons _ is k []) by lia.
  replace (w - (k - i)) with (S (w - (S k - i))) by lia. cbn [firstn vec]. replace (S k - i) with (S (k - i)) by lia. reflexivity.
Qed.

Lemma bond_start i : i < n -> bond i 0 = 1.
Proof. intros Hi. destruct (x_ok i Hi) as [[Hx Bx] _]. unfold bond. destruct (lts (x i)) as [|t ts]; [congruence|]. destruct Bx as [_ [E _]]. exact E. Qed.
Lemma bond_end i : i < n -> bond i w = 1.
Proof. intros Hi. unfold bond. rewrite app_nth2; rewrite map_length, x_len by exact Hi; [rewrite Nat.sub_diag; reflexivity|lia]. Qed.
Lemma Q_end i is : i < n -> ok is -> Qv i (i + w) is = [tail_e (i + w) is].
Proof.
  intros Hi His. unfold Qv. replace (i + w - i) with w by lia. rewrite skipn_all2 by (rewrite x_len by exact Hi; lia). cbn [vec map]. f_equal. ring.
Qed.
Lemma tail_step k is : ok is -> k < N -> tail_e k is = (get e (nth k is []) * tail_e (S k) is)%K.
Proof. intros His Hk. destruct (idx_rep _ _ _ His) as [Lis _]. unfold tail_e. rewrite (skipn_nth_cons _ is k []) by lia. reflexivity. Qed.

(** The embedding tensor multiplies a one-component vector. *)
Lemma E_acts k c : k < N -> facts N p k (add_virt e) (1, fun is => [c is]) (1, fun is => [get e (nth k is []) * c is]%K).
Proof.
  intros Hk. destruct (add_virt_ok e We) as [A [B [C D]]]. split; [exact A|]. split; [congruence|]. split; [exact C|]. split; [exact B|].
  intros is His. cbn [fst snd]. split; [reflexivity|]. unfold mvl. rewrite B, C. cbn [seq map]. rewrite bigsum_1. cbn [nth].
  rewrite ent_add_virt by (rewrite Pe; eapply rep_nth; eassumption). reflexivity.
Qed.
Lemma Z_acts k c : k < N -> facts N p k (zeros (shp (add_virt e))) (1, fun is => [c is]) (1, fun _ => [k0]).
Proof.
  intros Hk. pose proof (add_virt_shp e) as S1. assert (S2 : shp (zeros (K:=K) (shp (add_virt e))) = 1 :: shp e ++ [1]) by exact S1.
  assert (O : lt_ok (zeros (K:=K) (shp (add_virt e)))) by (eapply lt_ok_mk; [apply wf_tab|exact S2]).
  split; [exact O|]. split; [rewrite <- Pe; eapply pdims_mk; exact S2|]. split; [eapply rdim_mk; exact S2|]. split; [eapply ldim_mk; exact S2|].
  intros is His. split; [reflexivity|]. unfold mvl. rewrite (ldim_mk _ _ _ S2), (rdim_mk _ _ _ _ S2). cbn [seq map snd]. rewrite bigsum_1. unfold ent. rewrite get_zeros. f_equal. ring.
Qed.

Lemma NS_step k is : k < n -> NSd (n - k) k is = (nth 0 (Qv k k is) k0 + get e (nth k is []) * NSd (n - S k) (S k) is)%K.
Proof. intros H. replace (n - k) with (S (n - S k)) by lia. reflexivity. Qed.
Lemma Q_start_list i is : i < n -> ok is -> Qv i i is = [nth 0 (Qv i i is) k0].
Proof.
  intros Hi His. assert (L : length (Qv i i is) = 1) by (rewrite Q_len by (auto; unfold N; lia); rewrite Nat.sub_diag; apply bond_start; exact Hi).
  destruct (Qv i i is) as [|a [|b l]]; cbn in L; try lia. reflexivity.
Qed.

Lemma Forall3_Q k s m : k < N -> k < s + w -> (forall i, s <= i < s + m -> i < n /\ i <= k) ->
  Forall3 (facts N p k) (map (fun i => nth (k - i) (lts (x i)) dummy) (seq s m)) (map (fun i => Q i (S k)) (seq s m)) (map (fun i => Q i k) (seq s m)).
Proof.
  intros Hk. revert s; induction m as [|m IH]; intros s Hs H; [constructor|]. cbn [seq map].
  constructor; [destruct (H s ltac:(lia)); apply Q_step; lia|]. apply IH; [lia|]. intros i Hi. apply H. lia.
Qed.
Lemma Forall3_app (A B C : Type) (R : A -> B -> C -> Prop) a1 b1 c1 a2 b2 c2 :
  Forall3 R a1 b1 c1 -> Forall3 R a2 b2 c2 -> Forall3 R (a1 ++ a2) (b1 ++ b2) (c1 ++ c2).
Proof. induction 1; [auto|]. intros. cbn. constructor; auto. Qed.

(** Equal vectors for all valid multi-indices. *)
Definition beq (v u : bvec) : Prop := fst v = fst u /\ forall is, ok is -> snd v is = snd u is.
Lemma facts_beq k t v v' u u' : facts N p k t v u -> beq v v' -> beq u u' -> facts N p k t v' u'.
Proof. intros H [A1 A2] [B1 B2]. eapply facts_eq; eauto. Qed.
Lemma beq_refl v : beq v v.
Proof. split; auto. Qed.
Lemma beq_cat vs us : Forall2 beq vs us -> beq (bcat vs) (bcat us).
Proof.
  induction 1 as [|v u vs us [H1 H2] HF [I1 I2]]; [apply beq_refl|]. split.
  - change (fst v + fst (bcat vs) = fst u + fst (bcat us)). lia.
  - intros is His. change (snd v is ++ snd (bcat vs) is = snd u is ++ snd (bcat us) is). rewrite H2, I2 by exact His. reflexivity.
Qed.
Lemma beq_refls vs : Forall2 beq vs vs.
Proof. induction vs; constructor; auto using beq_refl. Qed.
Lemma beq_app_head v u vs : beq (bcat (bapp v u :: vs)) (bcat (v :: u :: vs)).
Proof. split; [cbn; lia|]. intros is _. cbn. rewrite app_assoc. reflexivity. Qed.
Lemma beq_app_tail vs v u : beq (bcat (vs ++ [bapp v u])) (bcat (vs ++ [v; u])).
Proof.
  split; [cbn [bcat fst]; rewrite !map_app; cbn; rewrite !list_sum_app; cbn; lia|]. intros is _. cbn. rewrite !map_app, !concat_app. cbn. rewrite !app_nil_r. reflexivity.
Qed.
Lemma beq_trans a b c : beq a b -> beq b c -> beq a c.
Proof. intros [H1 H2] [H3 H4]. split; [congruence|]. intros is His. rewrite H2, H4 by exact His. reflexivity. Qed.

Lemma seq_snoc s m : s <= m -> seq s (S m - s) = seq s (m - s) ++ [m].
Proof. intros H. replace (S m - s) with (S (m - s)) by lia. rewrite seq_S. f_equal. f_equal. lia. Qed.

(** Starting with term [k]: either it starts here or the embedding tensor follows. *)
Lemma NS_beq k : k < n -> k < N -> beq (badd (Q k k) (1, fun is => [get e (nth k is []) * NSd (n - S k) (S k) is]%K)) (NS k).
Proof.
  intros H Hk. split; [cbn; rewrite Nat.sub_diag; apply bond_start; exact H|]. intros is His. cbn [snd badd Q NS].
  rewrite Q_start_list by assumption. cbn [zip2]. rewrite (NS_step k) by exact H. reflexivity.
Qed.
Lemma NS_last k : S k = n -> beq (Q k k) (NS k).
Proof.
  intros H. split; [cbn; rewrite Nat.sub_diag; apply bond_start; lia|]. intros is His. cbn [snd Q NS].
  rewrite Q_start_list by (auto; lia). rewrite (NS_step k) by lia. rewrite H, Nat.sub_diag. cbn [NSd]. f_equal. ring.
Qed.
Lemma Vs_late k : n <= S k -> beq (bcat (map (fun i => Q i k) (seq (k - w) (n - (k - w))))) (bcat (Vs k)).
Proof.
  intros H. unfold Vs. destruct (Nat.ltb_spec k n) as [H1|H1].
  - assert (k = n - 1) by lia. rewrite Nat.min_r by lia. replace (n - (k - w)) with (S k - (k - w)) by lia. rewrite seq_snoc, map_app by lia. apply beq_cat.
    apply Forall2_app; [apply beq_refls|]. constructor; [apply NS_last; lia|constructor].
  - rewrite Nat.min_l by lia. rewrite app_nil_r. apply beq_refl.
Qed.

(** Embedding tensor after the last site of a term. *)
Lemma E_done i k : i < n -> S k = i + w -> k < N -> 0 < i -> facts N p k (add_virt e) (Q i (S k)) (Q (i - 1) k).
Proof.
  intros Hi E Hk H0. eapply facts_beq; [apply (E_acts k (tail_e (S k)) Hk)| |].
  - split; [cbn [fst Q]; rewrite E; replace (i + w - i) with w by lia; symmetry; apply bond_end; exact Hi|]. intros is His. cbn [snd Q]. rewrite E. symmetry. apply Q_end; assumption.
  - split; [cbn [fst Q]; replace (k - (i - 1)) with w by lia; symmetry; apply bond_end; lia|]. intros is His. cbn [snd Q]. replace k with (i - 1 + w) at 3 by lia.
    rewrite Q_end by (auto; lia). replace (i - 1 + w) with k by lia. rewrite <- tail_step by assumption. reflexivity.
Qed.

Theorem automaton_site k : k < N ->
  exists T, local_sum_site w n mpas (add_virt e) k = Ok T /\ facts N p k T (bcat (Vs (S k))) (bcat (Vs k)).
Proof.
  intros Hk. unfold local_sum_site. replace (k + 1) with (S k) by lia. set (s0 := S k - w). set (s1 := Nat.min n (S k)).
  change (fun i => nth (k - i) (lts (nth i mpas (mkLt [] 0 0))) dummy) with (fun i => nth (k - i) (lts (x i)) dummy).
  set (tn := fun i => nth (k - i) (lts (x i)) dummy). assert (Hs : s0 < s1) by (unfold s0, s1, N in *; lia).
  assert (FQ : forall s m, k < s + w -> s + m <= s1 -> Forall3 (facts N p k) (map tn (seq s m)) (map (fun i => Q i (S k)) (seq s m)) (map (fun i => Q i k) (seq s m))).
  { intros s m H1 H2. apply Forall3_Q; auto. intros i Hi. unfold s1 in *. lia. }
  destruct (Nat.ltb_spec k (n - 1)) as [Hr|Hr].
  - (* embedding tensors on the left remain possible *)
    assert (E1 : s1 = S k) by (unfold s1; lia).
    assert (EV : Vs (S k) = map (fun i => Q i (S k)) (seq s0 (k - s0)) ++ [Q k (S k); NS (S k)]).
    { unfold Vs. rewrite Nat.min_r by lia. rewrite (proj2 (Nat.ltb_lt _ _)) by lia. fold s0. rewrite seq_snoc by lia. rewrite map_app, <- app_assoc. reflexivity. }
    assert (EV0 : Vs k = map (fun i => Q i k) (seq (k - w) (k - (k - w))) ++ [NS k]).
    { unfold Vs. rewrite Nat.min_r by lia. rewrite (proj2 (Nat.ltb_lt _ _)) by lia. reflexivity. }
    rewrite E1 in *. rewrite seq_snoc by lia. rewrite map_app. cbn [map].
    assert (HE : facts N p k (add_virt e) (NS (S k)) (1, fun is => [get e (nth k is []) * NSd (n - S k) (S k) is]%K)) by (apply E_acts; exact Hk).
    assert (HQ : facts N p k (tn k) (Q k (S k)) (Q k k)) by (apply Q_step; lia).
    destruct (Nat.leb_spec w k) as [Hwk|Hwk].
    + destruct (Nat.eq_dec w 1) as [E|E].
      * (* width one *)
        replace (k - s0) with 0 by (unfold s0; lia). cbn [seq map app bind].
        assert (HD : facts N p k (add_virt e) (Q k (S k)) (Q (k - w) k)).
        { rewrite E. apply E_done; lia. }
        destruct (facts_cat_first N p k (add_virt e) (tn k) _ _ _ Hk HD HQ) as [c1 [Ec1 F1]].
        destruct (facts_cat_first N p k _ _ _ _ _ Hk (Z_acts k (NSd (n - S k) (S k)) Hk) HE) as [re [Ere F2]].
        rewrite Ec1. cbn [bind]. rewrite (proj2 (Nat.eqb_eq w 1) E). cbn [andb]. rewrite Ere. cbn [bind List.last removelast app].
        destruct (facts_cat_last N p k c1 re _ _ _ _ Hk F1 F2) as [c [Ec F]].
        { cbn [fst bapp Q]. rewrite Nat.sub_diag, bond_start by lia. replace (k - (k - w)) with w by lia. rewrite bond_end by lia. reflexivity. }
        rewrite Ec. cbn [bind].
        destruct (facts_block N p k [c] [bapp (Q k (S k)) (NS (S k))] [badd (bapp (Q (k - w) k) (Q k k)) (bapp (1, fun _ => [k0]) (1, fun is => [get e (nth k is []) * NSd (n - S k) (S k) is]%K))]) as [T [ET FT]].
        { discriminate. } { exact Hk. } { constructor; [exact F|constructor]. }
        exists T. split; [exact ET|]. eapply facts_beq; [exact FT| |].
        -- rewrite EV. replace (k - s0) with 0 by (unfold s0; lia). cbn [seq map app]. apply beq_app_head.
        -- rewrite EV0. replace (k - (k - w)) with 1 by lia. cbn [seq map app].
           apply (beq_trans _ (bcat [bapp (Q (k - w) k) (badd (Q k k) (1, fun is => [get e (nth k is []) * NSd (n - S k) (S k) is]%K))])).
           ++ apply beq_cat. constructor; [|constructor]. split; [reflexivity|]. intros is His. cbn [snd badd bapp Q].
              replace (Qv (k - w) k is) with [tail_e k is].
              2:{ replace k with (k - w + w) at 3 by lia. rewrite Q_end by (auto; lia). f_equal. f_equal. lia. }
              cbn [app zip2]. f_equal. ring.
           ++ eapply beq_trans; [apply beq_app_head|]. apply beq_cat. constructor; [apply beq_refl|]. constructor; [apply NS_beq; lia|constructor].
      * replace (k - s0) with (S (k - S s0)) by (unfold s0; lia). cbn [seq map app].
        assert (HD : facts N p k (add_virt e) (Q s0 (S k)) (Q (k - w) k)).
        { replace (k - w) with (s0 - 1) by (unfold s0; lia). apply E_done; unfold s0 in *; lia. }
        assert (HQ0 : facts N p k (tn s0) (Q s0 (S k)) (Q s0 k)) by (apply Q_step; unfold s0; lia).
        destruct (facts_cat_first N p k (add_virt e) (tn s0) _ _ _ Hk HD HQ0) as [c1 [Ec1 F1]]. rewrite Ec1. cbn [bind].
        rewrite (proj2 (Nat.eqb_neq w 1) E). cbn [andb bind].
        set (mid := map tn (seq (S s0) (k - S s0))).
        change (c1 :: mid ++ [tn k]) with ((c1 :: mid) ++ [tn k]). rewrite last_last, removelast_last.
        destruct (facts_cat_last N p k (tn k) (add_virt e) _ _ _ _ Hk HQ HE) as [c [Ec F]].
        { cbn [fst Q]. rewrite Nat.sub_diag, bond_start by lia. reflexivity. }
        cbn [app]. rewrite Ec. cbn [bind].
        destruct (facts_block N p k (c1 :: mid ++ [c])
          (Q s0 (S k) :: map (fun i => Q i (S k)) (seq (S s0) (k - S s0)) ++ [bapp (Q k (S k)) (NS (S k))])
          (bapp (Q (k - w) k) (Q s0 k) :: map (fun i => Q i k) (seq (S s0) (k - S s0)) ++ [badd (Q k k) (1, fun is => [get e (nth k is []) * NSd (n - S k) (S k) is]%K)])) as [T [ET FT]].
        { discriminate. } { exact Hk. }
        { constructor; [exact F1|]. apply Forall3_app; [apply FQ; unfold s0 in *; lia|]. constructor; [exact F|constructor]. }
        exists T. split; [exact ET|]. eapply facts_beq; [exact FT| |].
        -- rewrite EV. replace (k - s0) with (S (k - S s0)) by (unfold s0; lia). cbn [seq map app].
           change (Q s0 (S k) :: map (fun i => Q i (S k)) (seq (S s0) (k - S s0)) ++ [bapp (Q k (S k)) (NS (S k))])
             with ((Q s0 (S k) :: map (fun i => Q i (S k)) (seq (S s0) (k - S s0))) ++ [bapp (Q k (S k)) (NS (S k))]). apply beq_app_tail.
        -- eapply beq_trans; [apply beq_app_head|]. rewrite EV0. replace (k - (k - w)) with (S (S (k - S s0))) by (unfold s0; lia).
           cbn [seq map app]. replace (S (k - w)) with s0 by (unfold s0; lia).
           apply beq_cat. constructor; [apply beq_refl|]. constructor; [apply beq_refl|]. apply Forall2_app; [apply beq_refls|].
           constructor; [apply NS_beq; lia|constructor].
    + cbn [bind]. rewrite andb_false_r. cbn [bind]. rewrite last_last, removelast_last.
      destruct (facts_cat_last N p k (tn k) (add_virt e) _ _ _ _ Hk HQ HE) as [c [Ec F]].
      { cbn [fst Q]. rewrite Nat.sub_diag, bond_start by lia. reflexivity. }
      rewrite Ec. cbn [bind]. destruct (map tn (seq s0 (k - s0)) ++ [tn k]) as [|z l] eqn:Ez; [apply app_eq_nil in Ez; destruct Ez; discriminate|]. clear Ez z l.
      destruct (facts_block N p k (map tn (seq s0 (k - s0)) ++ [c])
          (map (fun i => Q i (S k)) (seq s0 (k - s0)) ++ [bapp (Q k (S k)) (NS (S k))])
          (map (fun i => Q i k) (seq s0 (k - s0)) ++ [badd (Q k k) (1, fun is => [get e (nth k is []) * NSd (n - S k) (S k) is]%K)])) as [T [ET FT]].
      { intros Ez. apply app_eq_nil in Ez. destruct Ez; discriminate. } { exact Hk. }
      { apply Forall3_app; [apply FQ; unfold s0 in *; lia|]. constructor; [exact F|constructor]. }
      exists T. split; [exact ET|]. eapply facts_beq; [exact FT| |].
      -- rewrite EV. apply beq_app_tail.
      -- rewrite EV0. replace (k - w) with s0 by (unfold s0; lia). apply beq_cat. apply Forall2_app; [apply beq_refls|]. constructor; [apply NS_beq; lia|constructor].
  - assert (E1 : s1 = n) by (unfold s1; lia). rewrite E1 in *.
    assert (EV : Vs (S k) = map (fun i => Q i (S k)) (seq s0 (n - s0))).
    { unfold Vs. rewrite Nat.min_l by lia. rewrite (proj2 (Nat.ltb_ge _ _)) by lia. rewrite app_nil_r. reflexivity. }
    destruct (Nat.leb_spec w k) as [Hwk|Hwk].
    + replace (n - s0) with (S (n - S s0)) by (unfold s0; lia). cbn [seq map].
      assert (HD : facts N p k (add_virt e) (Q s0 (S k)) (Q (k - w) k)).
      { replace (k - w) with (s0 - 1) by (unfold s0; lia). apply E_done; unfold s0 in *; lia. }
      assert (HQ0 : facts N p k (tn s0) (Q s0 (S k)) (Q s0 k)) by (apply Q_step; unfold s0, N in *; lia).
      destruct (facts_cat_first N p k (add_virt e) (tn s0) _ _ _ Hk HD HQ0) as [c1 [Ec1 F1]]. rewrite Ec1. cbn [bind].
      destruct (facts_block N p k (c1 :: map tn (seq (S s0) (n - S s0)))
          (Q s0 (S k) :: map (fun i => Q i (S k)) (seq (S s0) (n - S s0)))
          (bapp (Q (k - w) k) (Q s0 k) :: map (fun i => Q i k) (seq (S s0) (n - S s0)))) as [T [ET FT]].
      { discriminate. } { exact Hk. } { constructor; [exact F1|]. apply FQ; unfold s0 in *; lia. }
      exists T. split; [exact ET|]. eapply facts_beq; [exact FT| |].
      * rewrite EV. replace (n - s0) with (S (n - S s0)) by (unfold s0; lia). apply beq_refl.
      * eapply beq_trans; [apply beq_app_head|]. eapply beq_trans; [|apply Vs_late; lia].
        replace (n - (k - w)) with (S (S (n - S s0))) by (unfold s0, N in *; lia). cbn [seq map]. replace (S (k - w)) with s0 by (unfold s0; lia). apply beq_refl.
    + cbn [bind]. destruct (facts_block N p k (map tn (seq s0 (n - s0))) (map (fun i => Q i (S k)) (seq s0 (n - s0))) (map (fun i => Q i k) (seq s0 (n - s0)))) as [T [ET FT]].
      { replace (n - s0) with (S (n - S s0)) by lia. discriminate. } { exact Hk. } { apply FQ; unfold s0 in *; lia. }
      exists T. split; [exact ET|]. eapply facts_beq; [exact FT| |].
      * rewrite EV. apply beq_refl.
      * eapply beq_trans; [|apply Vs_late; lia]. replace (k - w) with s0 by (unfold s0; lia). apply beq_refl.
Qed.

Lemma Forall2_choice (A B : Type) (R : A -> B -> Prop) l : (forall a, In a l -> exists b, R a b) -> exists m, Forall2 R l m.
Proof.
  induction l as [|a l IH]; intros H; [exists []; constructor|]. destruct (H a (or_introl eq_refl)) as [b Hb].
  destruct IH as [m Hm]; [intros c Hc; apply H; right; exact Hc|]. exists (b :: m). constructor; assumption.
Qed.

Lemma automaton_chain m : forall k ts, k + m = N ->
  Forall2 (fun j T => facts N p j T (bcat (Vs (S j))) (bcat (Vs j))) (seq k m) ts ->
  bonds ts (fst (bcat (Vs k))) (fst (bcat (Vs N))) /\ map pdims ts = repeat p m /\ map ldim ts = map (fun j => fst (bcat (Vs j))) (seq k m) /\
  (forall is, ok is -> snd (bcat (Vs N)) is = [k1] -> vec ts (skipn k is) = snd (bcat (Vs k)) is).
Proof.
  induction m as [|m IH]; intros k ts E HF; cbn [seq] in HF; inversion HF as [|? T ? ts' H HF']; subst.
  - rewrite Nat.add_0_r in E. rewrite E. split; [reflexivity|]. split; [reflexivity|]. split; [reflexivity|]. intros is _ H. cbn [vec]. auto.
  - destruct (IH (S k) ts' ltac:(lia) HF') as [I1 [I2 [I3 I4]]]. destruct H as [A [B [C [D F]]]].
    split; [cbn [bonds]; split; [exact A|]; split; [exact D|]; rewrite C; exact I1|]. split; [cbn [map repeat]; rewrite B, I2; reflexivity|].
    split; [cbn [map seq]; rewrite D, I3; reflexivity|]. intros is His HN.
    destruct (idx_rep _ _ _ His) as [Lis _]. rewrite (skipn_nth_cons _ is k []) by lia. cbn [vec]. rewrite I4 by assumption. apply F. exact His.
Qed.

Lemma NSd_closed m : forall k is, k + m = n -> ok is ->
  NSd m k is = bigsum m (fun s => kprod (map (get e) (firstn s (skipn k is))) *
    amp (lts (x (k + s))) (firstn w (skipn (k + s) is)) 0 0 * kprod (map (get e) (skipn (k + s + w) is)))%K.
Proof.
  induction m as [|m IH]; intros k is E His; [reflexivity|]. destruct (idx_rep _ _ _ His) as [Lis _].
  cbn [NSd]. rewrite bigsum_shift. rewrite IH by (auto; lia). rewrite Nat.add_0_r. f_equal.
  - assert (Hk : k < n) by lia. unfold Qv. rewrite Nat.sub_diag. cbn [skipn]. rewrite Nat.sub_0_r.
    destruct (x_ok k Hk) as [[_ Bx] _].
    destruct (vec_spec (lts (x k)) (firstn w (skipn k is)) 1 Bx) as [V1 V2].
    { rewrite firstn_length, skipn_length, x_len by exact Hk. unfold N in *. lia. }
    rewrite (map_nth_lt _ _ (fun y => y * tail_e (k + w) is)%K _ 0 k0) by lia. rewrite V2 by lia. cbn [firstn map kprod fold_right]. unfold tail_e. ring.
  - rewrite <- bigsum_mul_l. apply bigsum_ext. intros s Hs. rewrite (skipn_nth_cons _ is k []) by (unfold N in *; lia). cbn [firstn map].
    cbn [kprod fold_right]. fold (kprod (map (get e) (firstn s (skipn (S k) is)))). replace (k + S s) with (S k + s) by lia. ring.
Qed.

Theorem automaton_spec :
  exists ts, mapM (local_sum_site w n mpas (add_virt e)) (seq 0 N) = Ok ts /\ ts <> [] /\ bonds ts 1 1 /\ map pdims ts = repeat p N /\
    map ldim ts = map (fun j => fst (bcat (Vs j))) (seq 0 N) /\
    forall is, ok is -> amp ts is 0 0 = bigsum n (fun s => kprod (map (get e) (firstn s is)) *
      amp (lts (x s)) (firstn w (skipn s is)) 0 0 * kprod (map (get e) (skipn (s + w) is)))%K.
Proof.
  destruct (Forall2_choice _ _ (fun k T => local_sum_site w n mpas (add_virt e) k = Ok T /\ facts N p k T (bcat (Vs (S k))) (bcat (Vs k))) (seq 0 N)) as [ts HF].
  { intros k Hk. apply in_seq in Hk. apply automaton_site. lia. }
  exists ts. split; [apply mapM_Forall2; clear -HF; induction HF as [|k T l ts [H _] HF IH]; constructor; assumption|].
  destruct (automaton_chain N 0 ts eq_refl) as [B1 [B2 [B3 B4]]]; [clear -HF; induction HF as [|k T l ts [_ H] HF IH]; constructor; assumption|].
  assert (N0 : 0 < N) by (unfold N; lia).
  assert (VN : Vs N = [Q (n - 1) N]).
  { unfold Vs. rewrite (proj2 (Nat.ltb_ge _ _)) by (unfold N; lia). rewrite Nat.min_l by (unfold N; lia). replace (N - w) with (n - 1) by (unfold N; lia).
    replace (n - (n - 1)) with 1 by lia. reflexivity. }
  assert (FN : fst (bcat (Vs N)) = 1).
  { rewrite VN. cbn [bcat fst map]. rewrite list_sum_cons. cbn [fst Q list_sum]. replace (N - (n - 1)) with w by (unfold N; lia). rewrite bond_end by lia. reflexivity. }
  assert (V0 : Vs 0 = [NS 0]).
  { unfold Vs. rewrite (proj2 (Nat.ltb_lt _ _)) by exact Hn0. rewrite Nat.min_r by lia. reflexivity. }
  assert (F0 : fst (bcat (Vs 0)) = 1) by (rewrite V0; reflexivity).
  rewrite F0, FN in B1.
  assert (Lts : length ts = N) by (rewrite <- (map_length pdims), B2; apply repeat_length).
  split; [intros ->; cbn in Lts; lia|]. split; [exact B1|]. split; [exact B2|]. split; [exact B3|].
  intros is His. destruct (idx_rep _ _ _ His) as [Lis _]. destruct (vec_spec ts is 1 B1 ltac:(lia)) as [_ V]. rewrite <- V by lia.
  specialize (B4 is His). cbn [skipn] in B4. rewrite B4.
  - rewrite V0. cbn [bcat snd map concat NS app nth]. rewrite Nat.sub_0_r. rewrite NSd_closed by (auto; lia). apply bigsum_ext. intros s Hs. reflexivity.
  - rewrite VN. cbn [bcat snd map concat Q]. rewrite app_nil_r. replace N with (n - 1 + w) by (unfold N; lia). rewrite Q_end by (auto; lia). unfold tail_e.
    rewrite skipn_all2 by (unfold N in Lis; lia). reflexivity.
Qed.

(** The rank promised in the docstring. *)
Lemma automaton_rank D k : 1 <= D -> (forall i j, i < n -> j <= w -> bond i j <= D) -> k <= N -> fst (bcat (Vs k)) <= w * D + 1.
Proof.
  intros HD HB Hk. unfold Vs, bcat. cbn [fst]. rewrite map_app, list_sum_app, map_map.
  assert (H1 : list_sum (map (fun i => fst (Q i k)) (seq (k - w) (Nat.min n k - (k - w)))) <= (Nat.min n k - (k - w)) * D).
  { assert (G : forall m s, (forall i, s <= i < s + m -> fst (Q i k) <= D) -> list_sum (map (fun i => fst (Q i k)) (seq s m)) <= m * D).
    { induction m as [|m IH]; intros s H; [cbn; lia|]. cbn [seq map]. rewrite list_sum_cons. specialize (IH (S s) ltac:(intros; apply H; lia)). specialize (H s ltac:(lia)). cbn [fst] in *. lia. }
    apply G. intros i Hi. cbn [fst Q]. apply HB; lia. }
  assert (H2 : list_sum (map fst (if k <? n then [NS k] else [])) <= 1) by (destruct (k <? n); cbn; lia).
  assert (H3 : (Nat.min n k - (k - w)) * D <= w * D) by (apply Nat.mul_le_mono_r; lia).
  eapply Nat.le_trans; [apply Nat.add_le_mono; [exact H1|exact H2]|]. apply Nat.add_le_mono_r. exact H3.
Qed.
End Automaton.

Theorem local_sum_identity_spec (mpas : list (ltens K)) emb e p w :
  mpas <> [] -> Forall mpa_ok mpas -> Forall (fun x => mshape x = repeat p w) mpas ->
  embed_tensor (hd (mkLt [] 0 0) mpas) emb e -> ndwf e -> shp e = p ->
  exists z, local_sum_identity mpas emb = Ok z /\ mpa_ok z /\ mshape z = repeat p (length mpas + w - 1) /\
    lcan z = 0%Z /\ rcan z = Z.of_nat (length mpas + w - 1) /\
    (forall D, 1 <= D -> Forall (fun x => Forall (fun r => r <= D) (ranks x)) mpas -> Forall (fun r => r <= w * D + 1) (ranks z)) /\
    forall is, Forall2 inr is (repeat p (length mpas + w - 1)) ->
      amp (lts z) is 0 0 = bigsum (length mpas) (fun s => kprod (map (get e) (firstn s is)) *
        amp (lts (nth s mpas (mkLt [] 0 0))) (firstn w (skipn s is)) 0 0 * kprod (map (get e) (skipn (s + w) is)))%K.
Proof.
  intros Hne Hok Hsh He We Pe. set (n := length mpas).
  assert (Hn0 : 0 < n) by (unfold n; destruct mpas; [congruence|cbn; lia]).
  assert (Hlen : forall y, In y mpas -> llen y = w).
  { intros y Hy. rewrite Forall_forall in Hsh. unfold llen. rewrite <- (map_length pdims). fold (mshape y). rewrite (Hsh y Hy). apply repeat_length. }
  assert (Hw0 : 0 < w).
  { destruct mpas as [|y l]; [congruence|]. inversion Hok as [|? ? [Hy _] _]; subst. rewrite <- (Hlen y (or_introl eq_refl)). unfold llen. destruct (lts y); [congruence|cbn; lia]. }
  destruct (automaton_spec mpas e p w n eq_refl Hn0 Hw0 Hok Hsh We Pe) as [ts [E1 [Nts [Bts [Pts [Lts Ats]]]]]].
  destruct (mpa_new_chain ts Nts Bts) as [z [Ez [Oz [Lz [C1 C2]]]]].
  assert (Lt : length ts = n + w - 1) by (rewrite <- (map_length pdims), Pts; apply repeat_length).
  exists z. split.
  { unfold local_sum_identity. destruct mpas as [|y l]; [congruence|]. cbn [hd] in He. rewrite (embed_tensor_ok y emb e He). cbn [bind].
    rewrite (Hlen y (or_introl eq_refl)). fold n.
    replace (forallb (fun x => llen x =? w) (y :: l)) with true by (symmetry; apply forallb_forall; intros u Hu; apply Nat.eqb_eq; apply Hlen; exact Hu).
    cbn [passert]. rewrite E1. cbn [bind]. exact Ez. }
  split; [exact Oz|]. split; [unfold mshape; rewrite Lz; exact Pts|]. split; [exact C1|]. split; [rewrite C2, Lt; reflexivity|]. split.
  - intros D HD HR. unfold ranks. rewrite Lz. apply Forall_forall. intros r Hr.
    assert (Hr' : In r (map ldim ts)).
    { clear -Hr. destruct ts as [|t ts]; [exact Hr|]. cbn [tl map] in *. right. exact Hr. }
    rewrite Lts in Hr'. apply in_map_iff in Hr'. destruct Hr' as [k [<- Hk]]. apply in_seq in Hk.
    apply (automaton_rank mpas e w n); auto; [|lia]. intros i j Hi Hj.
    assert (Hin : In (nth i mpas (mkLt [] 0 0)) mpas) by (apply nth_In; exact Hi). set (y := nth i mpas (mkLt [] 0 0)) in *.
    rewrite Forall_forall in Hok, HR. destruct (Hok y Hin) as [Ny By]. specialize (HR y Hin).
    destruct (Nat.lt_ge_cases j (length (lts y))) as [Hj'|Hj'].
    + rewrite app_nth1 by (rewrite map_length; exact Hj'). unfold ranks in HR. destruct (lts y) as [|t l]; [congruence|]. cbn [tl map] in *. destruct j as [|j].
      * destruct By as [_ [-> _]]. exact HD.
      * cbn [nth]. rewrite Forall_forall in HR. apply HR. apply nth_In. rewrite map_length. cbn in Hj'; lia.
    + rewrite app_nth2 by (rewrite map_length; exact Hj'). destruct (j - length (map ldim (lts y))) as [|q]; [exact HD|]. rewrite nth_overflow by (cbn; lia). exact HD.
  - intros is His. rewrite Lz. apply Ats. exact His.
Qed.

(** One embedded term: [x] on sites [a, ...], the embedding tensor elsewhere. *)
Definition embedded (e : nd K) (a : nat) (x : ltens K) (is : list (list nat)) : K :=
  (kprod (map (get e) (firstn a is)) * amp (lts x) (firstn (llen x) (skipn a is)) 0 0 *
   kprod (map (get e) (skipn (a + llen x) is)))%K.
Definition windows (sts : list nat) (mpas : list (ltens K)) : list (Z * Z) :=
  zip2 (fun a x => (Z.of_nat a, Z.of_nat (a + llen x))) sts mpas.

Lemma all_eq_true l m : all_eq l m = true -> l = m.
Proof.
  revert m; induction l as [|[a b] l IH]; intros [|[c d] m] H; try discriminate; [reflexivity|]. cbn [all_eq] in H. unfold zz_eqb in H.
  rewrite !andb_true_iff, !Z.eqb_eq in H. cbn [fst snd] in H. destruct H as [[-> ->] H]. rewrite (IH m H). reflexivity.
Qed.

Lemma firstn_skipn_idx (is : list (list nat)) p L a w : Forall2 inr is (repeat p L) -> a + w <= L ->
  Forall2 inr (firstn a is) (repeat p a) /\ Forall2 inr (firstn w (skipn a is)) (repeat p w) /\ Forall2 inr (skipn (a + w) is) (repeat p (L - (a + w))) /\
  is = firstn a is ++ firstn w (skipn a is) ++ skipn (a + w) is.
Proof.
  intros H Hl. replace L with (a + (w + (L - (a + w)))) in H by lia. rewrite !repeat_app in H.
  apply Forall2_app_inv_r in H. destruct H as [i1 [i2 [H1 [H2 ->]]]]. apply Forall2_app_inv_r in H2. destruct H2 as [i3 [i4 [H3 [H4 ->]]]].
  pose proof (Forall2_len _ _ _ _ _ H1) as L1. pose proof (Forall2_len _ _ _ _ _ H3) as L3. rewrite repeat_length in L1, L3.
  assert (F1 : firstn a (i1 ++ i3 ++ i4) = i1) by (rewrite <- L1; apply firstn_at).
  assert (S1 : skipn a (i1 ++ i3 ++ i4) = i3 ++ i4) by (rewrite skipn_app, skipn_all2, L1, Nat.sub_diag by lia; reflexivity).
  assert (F2 : firstn w (i3 ++ i4) = i3) by (rewrite <- L3; apply firstn_at).
  assert (S2 : skipn (a + w) (i1 ++ i3 ++ i4) = i4).
  { rewrite app_assoc, skipn_app, skipn_all2 by (rewrite app_length; lia). rewrite app_length, L1, L3, Nat.sub_diag. reflexivity. }
  rewrite F1, S1, F2, S2. auto.
Qed.

Theorem local_sum_spec (mpas : list (ltens K)) (sts : list nat) emb e p (L : nat) :
  mpas <> [] -> length sts = length mpas -> Forall mpa_ok mpas ->
  Forall (fun x => mshape x = repeat p (llen x)) mpas -> Forall2 (fun a x => a + llen x <= L) sts mpas ->
  Forall (fun x => embed_tensor x emb e) mpas -> ndwf e -> shp e = p ->
  exists z, local_sum mpas emb L (Some (windows sts mpas)) = Ok z /\ mpa_ok z /\ mshape z = repeat p L /\
    lcan z = 0%Z /\ rcan z = Z.of_nat L /\
    forall is, Forall2 inr is (repeat p L) ->
      amp (lts z) is 0 0 = bigsum (length mpas) (fun j => embedded e (nth j sts 0) (nth j mpas (mkLt [] 0 0)) is).
Proof.
  intros Hne Ls Hok Hsh Hfit Hemb We Pe. unfold local_sum.
  assert (Lw : length (windows sts mpas) = length mpas) by (unfold windows; rewrite zip2_length; auto).
  assert (Wn : forall j, j < length mpas -> nth j (windows sts mpas) (0, 0)%Z = (Z.of_nat (nth j sts 0), Z.of_nat (nth j sts 0 + llen (nth j mpas (mkLt [] 0 0))))).
  { clear -Ls. unfold windows. revert mpas Ls; induction sts as [|a sts IH]; intros [|y mpas] Ls j Hj; cbn in *; try lia. destruct j; [reflexivity|]. apply IH; lia. }
  assert (Hpos : forall x, In x mpas -> 0 < llen x).
  { intros x Hx. rewrite Forall_forall in Hok. destruct (Hok x Hx) as [N _]. unfold llen. destruct (lts x); [congruence|cbn; lia]. }
  set (sl := windows sts mpas) in *.
  destruct sl as [|[a b] sl'] eqn:Esl; [destruct mpas; [congruence|discriminate]|]. rewrite <- Esl in *.
  set (x0 := nth 0 mpas (mkLt [] 0 0)).
  assert (H0 : 0 < length mpas) by (destruct mpas; [congruence|cbn; lia]).
  assert (Hx0 : In x0 mpas) by (apply nth_In; exact H0).
  assert (Ew : (b - a)%Z = Z.of_nat (llen x0)).
  { specialize (Wn 0 H0). rewrite Esl in Wn. cbn [nth] in Wn. injection Wn as -> ->. fold x0. lia. }
  rewrite Ew. unfold regular_slices. cbn [Z.eqb]. rewrite Z.mod_1_r. cbn [Z.eqb passert bind].
  set (reg := map _ (seq 0 _)). destruct (all_eq sl reg) eqn:Eall.
  - apply all_eq_true in Eall. set (w := llen x0).
    assert (Ln : length mpas = L - w + 1 /\ w <= L).
    { assert (length sl = length reg) by congruence. rewrite Lw in H. unfold reg in H. rewrite map_length, seq_length, Z.div_1_r in H. fold w in H.
      unfold w in *. split; [|]; lia. }
    assert (Rn : forall j, j < length mpas -> nth j sts 0 = j /\ llen (nth j mpas (mkLt [] 0 0)) = w).
    { intros j Hj. pose proof (Wn j Hj) as W. rewrite Eall in W. unfold reg in W.
      rewrite (map_nth_lt _ _ _ (seq 0 _) j 0) in W by (rewrite seq_length, Z.div_1_r; fold w; lia).
      rewrite seq_nth in W by (rewrite Z.div_1_r; fold w; lia). apply pair_equal_spec in W. destruct W as [W1 W2]. fold w in W2. lia. }
    destruct (local_sum_identity_spec mpas emb e p w) as [z [Ez [Oz [Sz [C1 [C2 [_ Az]]]]]]]; auto.
    + rewrite Forall_forall in *. intros x Hx. destruct (In_nth mpas x (mkLt [] 0 0) Hx) as [j [Hj Ej]]. rewrite (Hsh x Hx). f_equal. rewrite <- Ej. apply Rn; exact Hj.
    + rewrite Forall_forall in Hemb. apply Hemb. destruct mpas; [congruence|left; reflexivity].
    + exists z. replace (length mpas + w - 1) with L in * by lia.
      split; [exact Ez|]. split; [exact Oz|]. split; [exact Sz|]. split; [exact C1|]. split; [exact C2|].
      intros is His. rewrite (Az is His). apply bigsum_ext. intros j Hj. unfold embedded. destruct (Rn j Hj) as [-> ->]. reflexivity.
  - assert (HE : exists xs, mapM (fun q => embed_slice L (mkSlice (Some (fst (snd q))) (Some (snd (snd q))) None) (fst q) emb) (combine mpas sl) = Ok xs /\
                   length xs = length mpas /\ forall j, j < length mpas -> let z := nth j xs (mkLt [] 0 0) in
                     mpa_ok z /\ mshape z = repeat p L /\ forall is, Forall2 inr is (repeat p L) -> amp (lts z) is 0 0 = embedded e (nth j sts 0) (nth j mpas (mkLt [] 0 0)) is).
    { unfold sl, windows in *. clear Esl Lw Wn sl reg Eall Ew a b sl' x0 H0 Hx0 Hne.
      revert sts Ls Hfit; induction mpas as [|x mpas IH]; intros sts Ls Hfit.
      - exists []. split; [destruct sts; reflexivity|]. split; [reflexivity|]. intros j Hj; cbn in Hj; lia.
      - destruct sts as [|a sts]; [discriminate|]. inversion_clear Hok as [|? ? Ox Hok']. inversion_clear Hsh as [|? ? Sx Hsh']. inversion_clear Hemb as [|? ? Ex Hemb'].
        inversion_clear Hfit as [|? ? ? ? Fx Hfit'].
        destruct (IH Hok' Hsh' Hemb' ltac:(intros; apply Hpos; right; assumption) sts ltac:(cbn in Ls; lia) Hfit') as [xs [E1 [E2 E3]]].
        destruct (embed_slice_spec x emb e L a Ox Ex We Fx) as [z [Ez [Oz [Sz [_ [_ Az]]]]]].
        exists (z :: xs). split; [cbn [zip2 combine mapM fst snd]; rewrite Ez; cbn [bind]; rewrite E1; reflexivity|].
        split; [cbn; lia|]. intros [|j] Hj; [|apply E3; cbn in Hj; lia]. cbn [nth]. split; [exact Oz|]. split.
        + rewrite Sz, Sx, Pe. rewrite <- !repeat_app. f_equal. lia.
        + intros is His. destruct (firstn_skipn_idx is p L a (llen x) His Fx) as [F1 [F2 [F3 F4]]]. rewrite F4 at 1. rewrite Az; [reflexivity|rewrite Pe; exact F1|rewrite Sx; exact F2|rewrite Pe; exact F3]. }
    destruct HE as [xs [E1 [E2 E3]]]. rewrite E1. cbn [bind].
    destruct (msumup_spec xs None L (repeat p L)) as [z [Ez [Oz [Sz [_ [C1 [C2 Az]]]]]]].
    + intros ->. cbn in E2. lia.
    + apply Forall_forall. intros z Hz. destruct (In_nth xs z (mkLt [] 0 0) Hz) as [j [Hj <-]]. apply E3. lia.
    + apply Forall_forall. intros z Hz. destruct (In_nth xs z (mkLt [] 0 0) Hz) as [j [Hj <-]]. apply E3. lia.
    + apply repeat_length.
    + discriminate.
    + exists z. split; [exact Ez|]. split; [exact Oz|]. split; [exact Sz|]. split; [exact C1|]. split; [exact C2|].
      intros is His. rewrite (Az is His), E2. apply bigsum_ext. intros j Hj. cbn [wt]. destruct (E3 j Hj) as [_ [_ A]]. rewrite A by exact His. ring.
Qed.
End Embed.
