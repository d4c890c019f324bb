(** inject (mparray.py 1338-1397): product sites inserted into a chain. *)
From Verif Require Export PfEmbed.

(** [l] cut at the positions [ps] (increasing, counted from [a]). *)
Fixpoint cuts {A : Type} (a : nat) (ps : list nat) (l : list A) : list (list A) :=
  match ps with
  | [] => [l]
  | b :: ps' => firstn (b - a) l :: cuts b ps' (skipn (b - a) l)
  end.
(** Pieces and insertions alternate. *)
Fixpoint interleave {A : Type} (pieces ins : list (list A)) : list A :=
  match pieces, ins with
  | p :: ps, q :: qs => p ++ q ++ interleave ps qs
  | p :: _, [] => p
  | [], _ => []
  end.

Lemma skipn_cons_nth (A : Type) (l : list A) k d : k < length l -> skipn k l = nth k l d :: skipn (S k) l.
Proof. revert k; induction l as [|y l IH]; intros [|k] H; cbn in *; try lia; [reflexivity|]. apply IH. lia. Qed.
Lemma Forall2_weaken (A B : Type) (R S : A -> B -> Prop) l m : (forall a b, R a b -> S a b) -> Forall2 R l m -> Forall2 S l m.
Proof. intros H. induction 1; constructor; auto. Qed.
Lemma skipn_add (A : Type) m n (l : list A) : skipn n (skipn m l) = skipn (m + n) l.
Proof. revert l; induction m as [|m IH]; intros l; [reflexivity|]. destruct l; [apply skipn_nil|]. cbn. apply IH. Qed.
Lemma cuts_length (A : Type) ps : forall a (l : list A), length (cuts a ps l) = S (length ps).
Proof. induction ps as [|b ps IH]; intros a l; [reflexivity|]. cbn. rewrite IH. reflexivity. Qed.
Lemma cuts_concat (A : Type) ps : forall a (l : list A), concat (cuts a ps l) = l.
Proof. induction ps as [|b ps IH]; intros a l; cbn; [apply app_nil_r|]. rewrite IH. apply firstn_skipn. Qed.
Lemma cuts_map (A B : Type) (f : A -> B) ps : forall a l, cuts a ps (map f l) = map (map f) (cuts a ps l).
Proof. induction ps as [|b ps IH]; intros a l; [reflexivity|]. cbn [cuts map]. rewrite firstn_map, skipn_map, IH. reflexivity. Qed.
Lemma cuts_Forall2 (A B : Type) (R : A -> B -> Prop) ps : forall a l m, Forall2 R l m -> Forall2 (Forall2 R) (cuts a ps l) (cuts a ps m).
Proof.
  induction ps as [|b ps IH]; intros a l m H; cbn [cuts]; [repeat constructor; exact H|].
  assert (F : Forall2 R (firstn (b - a) l) (firstn (b - a) m) /\ Forall2 R (skipn (b - a) l) (skipn (b - a) m)).
  { generalize (b - a). clear IH. induction H as [|x y l m Hxy H IH]; intros k.
    - rewrite !firstn_nil, !skipn_nil. split; constructor.
    - destruct k as [|k]; cbn; [split; [constructor|constructor; assumption]|].
      destruct (IH k) as [I1 I2]. split; [constructor; assumption|exact I2]. }
  constructor; [apply F|]. apply IH. apply F.
Qed.

Section Inject.
Context {K : StarRing}.
Add Ring Kr : (k_ring K).

(** ** One injected site *)
Lemma freeaxes_none n : freeaxes n [] = seq 0 n.
Proof. unfold freeaxes. change (filter (fun _ => true) (seq 0 n) = seq 0 n). induction (seq 0 n) as [|k l IH]; [reflexivity|]. cbn. rewrite IH. reflexivity. Qed.

Definition prod_site (r : nat) (t : nd K) : nd K :=
  rollaxis (tensordot t (eye r) [] []) (ndim (tensordot t (eye r) [] []) - 1) 0.

Lemma prod_site_spec r (t : nd K) : ndwf t ->
  lt_ok (prod_site r t) /\ ldim (prod_site r t) = r /\ rdim (prod_site r t) = r /\ pdims (prod_site r t) = shp t /\
  forall a i b, a < r -> inr i (shp t) -> b < r -> ent (prod_site r t) a i b = (get t i * delta b a)%K.
Proof.
  intros Wt. unfold prod_site. set (o := tensordot t (eye r) [] []).
  assert (So : shp o = shp t ++ [r; r]).
  { unfold o. rewrite shp_tensordot, !freeaxes_none. unfold ndim. rewrite !gather_seq0. reflexivity. }
  assert (No : ndim o - 1 = S (length (shp t))) by (unfold ndim; rewrite So, app_length; cbn; lia).
  assert (No' : ndim o = S (S (length (shp t)))) by (unfold ndim; rewrite So, app_length; cbn; lia).
  assert (RM : forall l x y, remove_at (S (length l)) (l ++ [x; y]) = l ++ [x]).
  { intros l x y. unfold remove_at. change [x; y] with ([x] ++ [y]). rewrite app_assoc. replace (S (length l)) with (length (l ++ [x])) at 1 by (rewrite app_length; cbn; lia).
    rewrite firstn_at. rewrite skipn_all2 by (rewrite !app_length; cbn; lia). apply app_nil_r. }
  assert (NT : forall l x y, nth (S (length l)) (l ++ [x; y]) 0 = y).
  { intros l x y. rewrite app_nth2 by lia. replace (S (length l) - length l) with 1 by lia. reflexivity. }
  rewrite No. set (s := rollaxis o (S (length (shp t))) 0).
  assert (Ss : shp s = r :: shp t ++ [r]).
  { unfold s. rewrite shp_rollaxis by lia. rewrite So, RM, NT. reflexivity. }
  assert (Os : lt_ok s) by (eapply lt_ok_mk; [apply wf_transpose|exact Ss]).
  split; [exact Os|]. split; [eapply ldim_mk; exact Ss|]. split; [eapply rdim_mk; exact Ss|]. split; [eapply pdims_mk; exact Ss|].
  intros a i b Ha Hi Hb. unfold ent.
  assert (Hj : inr (i ++ [b; a]) (shp o)).
  { rewrite So. apply inr_app; [exact Hi|]. apply inr_cons; [exact Hb|]. apply inr_single; exact Ha. }
  assert (E := get_rollaxis o (S (length (shp t))) 0 (i ++ [b; a]) ltac:(lia) Hj). fold s in E.
  rewrite <- (inr_length _ _ Hi) in E. rewrite NT, RM in E. change (get s (a :: i ++ [b]) = get o (i ++ [b; a])) in E. rewrite E.
  unfold o. rewrite get_tensordot; rewrite ?freeaxes_none; unfold ndim; rewrite ?gather_seq0.
  - rewrite gather_nil. cbn [msum]. rewrite !app_nil_r. cbn [app]. f_equal.
    + f_equal. rewrite <- (gather_seq0 i) at 1. replace (length (shp t)) with (length i) by (apply inr_length; exact Hi).
      apply scatter_gather; [unfold is_perm; rewrite seq_length; apply Permutation_refl|rewrite seq_length; reflexivity].
    + replace (scatter (seq 0 (length (shp (eye (K:=K) r)))) [b; a]) with [b; a]; [apply get_eye; assumption|].
      change (length (shp (eye (K:=K) r))) with 2. reflexivity.
  - exact Hi.
  - change (shp (eye (K:=K) r)) with [r; r]. apply inr_cons; [exact Hb|]. apply inr_single; exact Ha.
Qed.

Lemma prod_chain r (ts : list (nd K)) : Forall ndwf ts ->
  bonds (map (prod_site r) ts) r r /\ map pdims (map (prod_site r) ts) = map shp ts /\
  forall js a b, Forall2 inr js (map shp ts) -> a < r -> b < r ->
    amp (map (prod_site r) ts) js a b = (delta a b * kprod (zip2 get ts js))%K.
Proof.
  induction 1 as [|t ts Wt HF [I1 [I2 I3]]].
  - split; [reflexivity|]. split; [reflexivity|]. intros js a b H Ha Hb. inversion H; subst. cbn. ring.
  - destruct (prod_site_spec r t Wt) as [A [B [C [D E]]]]. split; [cbn [map bonds]; rewrite C; auto|]. split; [cbn [map]; rewrite D, I2; reflexivity|].
    intros js a b H Ha Hb. inversion_clear H as [|j ? js' ? Hj Hjs]. cbn [map amp zip2]. rewrite C.
    rewrite (bigsum_single _ a).
    + rewrite E by assumption. rewrite delta_eq, I3 by assumption. change (kprod (get t j :: zip2 get ts js')) with (get t j * kprod (zip2 get ts js'))%K. ring.
    + exact Ha.
    + intros c Hc Hne. rewrite E by assumption. rewrite delta_neq by exact Hne. ring.
Qed.

(** ** The merged chain *)
Definition piece_rank (p : list (nd K)) : nat := match p with [] => 1 | _ => rdim (List.last p dummy) end.
Fixpoint merged (pieces tens : list (list (nd K))) : list (nd K) :=
  match pieces, tens with
  | p :: ps, q :: qs => p ++ map (prod_site (piece_rank p)) q ++ merged ps qs
  | p :: _, [] => p
  | [], _ => []
  end.

Lemma last_rdim (ts : list (nd K)) l r : ts <> [] -> bonds ts l r -> rdim (List.last ts dummy) = r.
Proof.
  revert l; induction ts as [|t ts IH]; intros l Hne Hb; [congruence|]. destruct Hb as [_ [_ Hb]]. destruct ts as [|u ts].
  - cbn in *. exact Hb.
  - cbn [List.last]. apply (IH (rdim t)); [discriminate|exact Hb].
Qed.

Lemma merged_spec tens : forall pieces l r, length pieces = S (length tens) -> bonds (concat pieces) l r ->
  (tens = [] \/ hd [] pieces <> [] \/ l = 1) -> Forall (fun p => p <> []) (removelast (tl pieces)) -> Forall (Forall ndwf) tens ->
  bonds (merged pieces tens) l r /\ map pdims (merged pieces tens) = interleave (map (map pdims) pieces) (map (map shp) tens) /\
  forall iss jss a b, Forall2 (Forall2 inr) iss (map (map pdims) pieces) -> Forall2 (Forall2 inr) jss (map (map shp) tens) -> a < l -> b < r ->
    amp (merged pieces tens) (interleave iss jss) a b = (amp (concat pieces) (concat iss) a b * kprod (zip2 (fun ts js => kprod (zip2 get ts js)) tens jss))%K.
Proof.
  induction tens as [|q tens IH]; intros pieces l r Hl Hb H0 Hmid Hw.
  - destruct pieces as [|p [|p2 ps]]; try discriminate. cbn [concat] in Hb. rewrite app_nil_r in Hb. cbn [merged map interleave].
    split; [exact Hb|]. split; [reflexivity|]. intros iss jss a b Hi Hj Ha Hb'. inversion_clear Hi as [|is ? iss' ? His Hiss]. inversion_clear Hiss. inversion_clear Hj.
    cbn [interleave concat zip2]. rewrite !app_nil_r. change (kprod (K:=K) []) with (k1 (s:=K)). ring.
  - destruct pieces as [|p ps]; [discriminate|]. cbn [concat] in Hb. apply bonds_app in Hb. destruct Hb as [m [Bp Bs]].
    inversion_clear Hw as [|? ? Wq Wt].
    assert (Er : piece_rank p = m).
    { unfold piece_rank. destruct p as [|t p]; [cbn in Bp; cbn [hd] in H0; destruct H0 as [H0|[H0|H0]]; congruence|]. apply (last_rdim (t :: p) l); [discriminate|exact Bp]. }
    destruct (prod_chain m q Wq) as [Q1 [Q2 Q3]].
    destruct (IH ps m r) as [I1 [I2 I3]].
    + cbn in Hl. lia.
    + exact Bs.
    + destruct tens as [|q2 tens]; [left; reflexivity|]. destruct ps as [|p2 [|p3 ps]]; try (cbn in Hl; lia). right. left.
      cbn [tl removelast] in Hmid. inversion_clear Hmid as [|? ? N2 _]. exact N2.
    + destruct ps as [|p2 ps]; [constructor|]. cbn [tl] in *. destruct ps as [|p3 ps]; [constructor|]. cbn [removelast] in Hmid. inversion_clear Hmid as [|? ? _ H]. exact H.
    + exact Wt.
    + cbn [merged]. rewrite Er. split; [apply bonds_app; exists m; split; [exact Bp|apply bonds_app; exists m; split; assumption]|].
      split; [rewrite !map_app, Q2, I2; reflexivity|].
      intros iss jss a b Hi Hj Ha Hb. inversion_clear Hi as [|is ? iss' ? His Hiss]. inversion_clear Hj as [|js ? jss' ? Hjs Hjss].
      cbn [interleave concat zip2].
      rewrite (amp_app p _ is _ a b l m); [|rewrite (Forall2_len _ _ _ _ _ His), map_length; reflexivity|exact Bp|exact Ha].
      rewrite (amp_app p (concat ps) is _ a b l m); [|rewrite (Forall2_len _ _ _ _ _ His), map_length; reflexivity|exact Bp|exact Ha].
      rewrite <- bigsum_mul_r. apply bigsum_ext. intros c Hc.
      rewrite (amp_app _ (merged ps tens) js _ c b m m); [|rewrite (Forall2_len _ _ _ _ _ Hjs), !map_length; reflexivity|exact Q1|exact Hc].
      rewrite (bigsum_single _ c).
      * rewrite Q3, delta_eq, I3 by assumption. change (kprod (kprod (zip2 get q js) :: ?l)) with (kprod (zip2 get q js) * kprod l)%K. cbn [kprod fold_right]. 
        fold (kprod (K:=K)). unfold kprod. ring.
      * exact Hc.
      * intros d Hd Hne. rewrite Q3 by assumption. rewrite delta_neq by auto. ring.
Qed.

(** ** inject *)
Fixpoint increasing (a : nat) (ps : list nat) (n : nat) : Prop :=
  match ps with
  | [] => a <= n
  | b :: ps' => a < b /\ increasing b ps' n
  end.
(** Strictly increasing positions between 0 and [n]. *)
Definition positions (ps : list nat) (n : nat) : Prop :=
  match ps with [] => True | b :: ps' => increasing b ps' n end.

(** Tensors injected at position [b]: a missing tensor is the identity matrix of
    the dimension of the first leg of the site at [b] (of the last site at the end). *)
Definition injected (x : ltens K) (b : nat) (item : inject_item (K:=K)) (ts : list (nd K)) : Prop :=
  Forall2 (fun o t => match o with
                      | Some t' => t = t' /\ ndwf t'
                      | None => exists d rest, nth (Nat.min b (llen x - 1)) (mshape x) [] = d :: rest /\ t = eye d
                      end) (inject_list item) ts.

Lemma increasing_le ps : forall a n, increasing a ps n -> a <= n.
Proof. induction ps as [|b ps IH]; intros a n H; [exact H|]. destruct H as [H1 H2]. apply IH in H2. lia. Qed.

Lemma pieces_cuts (A : Type) (l : list A) ps : forall a, increasing a ps (length l) \/ (exists b ps', ps = b :: ps' /\ a <= b /\ increasing b ps' (length l)) \/ (ps = [] /\ a <= length l) ->
  pieces_of l (Z.of_nat a :: map Z.of_nat ps ++ [Z.of_nat (length l)]) = cuts a ps (skipn a l).
Proof.
  assert (C : forall z, z <= length l -> pyclamp (length l) (Z.of_nat z) = z).
  { intros z Hz. unfold pyclamp. rewrite (proj2 (Z.ltb_ge _ _)) by lia. destruct (Z.ltb_spec (Z.of_nat (length l)) (Z.of_nat z)); lia. }
  induction ps as [|b ps IH]; intros a H.
  - assert (Ha : a <= length l) by (destruct H as [H|[[b [ps' [E _]]]|[_ H]]]; [exact H|discriminate|exact H]).
    cbn [map app pieces_of cuts]. unfold pyslice. rewrite !C by lia. rewrite firstn_all2 by (rewrite skipn_length; lia). reflexivity.
  - assert (Hab : a <= b /\ increasing b ps (length l)).
    { destruct H as [[H1 H2]|[[b' [ps' [E [H1 H2]]]]|[E _]]]; [split; [lia|exact H2]|injection E as <- <-; auto|discriminate]. }
    destruct Hab as [Hab Hin]. assert (Hb := increasing_le _ _ _ Hin). cbn [map app]. cbn [cuts].
    change (pieces_of l (Z.of_nat a :: Z.of_nat b :: map Z.of_nat ps ++ [Z.of_nat (length l)]))
      with (pyslice l (Z.of_nat a) (Z.of_nat b) :: pieces_of l (Z.of_nat b :: map Z.of_nat ps ++ [Z.of_nat (length l)])).
    rewrite IH by (left; exact Hin). unfold pyslice. rewrite !C by lia. f_equal. f_equal.
    rewrite skipn_add. f_equal. lia.
Qed.

Lemma inject_merge_eq (x : ltens K) lastdim tens : forall pieces items, length pieces = S (length items) ->
  Forall2 (fun q_item ts => Forall2 (fun o t => inject_site (piece_rank (fst (fst q_item))) (match snd (fst q_item) with [] => lastdim | t0 :: _ => nth 1 (shp t0) 0 end) o = prod_site (piece_rank (fst (fst q_item))) t) (inject_list (snd q_item)) ts)
          (combine (combine pieces (tl pieces)) items) tens ->
  inject_merge lastdim pieces items = merged pieces tens.
Proof.
  induction tens as [|ts tens IH]; intros pieces items Hl H.
  - destruct pieces as [|p [|q ps]]; destruct items as [|it items]; try discriminate; try reflexivity.
    cbn [tl combine] in H. inversion H.
  - destruct pieces as [|p [|q ps]]; destruct items as [|it items]; try discriminate; try (inversion H; fail).
    cbn [tl combine] in H. inversion_clear H as [|? ? ? ? H1 H2]. cbn [fst snd] in H1.
    change (inject_merge lastdim (p :: q :: ps) (it :: items)) with
      (p ++ map (inject_site (piece_rank p) (match q with [] => lastdim | t :: _ => nth 1 (shp t) 0 end)) (inject_list it) ++ inject_merge lastdim (q :: ps) items).
    change (merged (p :: q :: ps) (ts :: tens)) with (p ++ map (prod_site (piece_rank p)) ts ++ merged (q :: ps) tens).
    f_equal. f_equal.
    + clear -H1. induction H1 as [|o t os ts E H1 IH]; [reflexivity|]. cbn [map]. rewrite E, IH. reflexivity.
    + apply IH; [cbn in Hl |- *; lia|]. exact H2.
Qed.

(** First piece after position [b]. *)
Lemma cuts_head (A : Type) (l : list A) b ps d : increasing b ps (length l) ->
  match hd [] (cuts b ps (skipn b l)) with
  | [] => b = length l
  | y :: _ => b < length l /\ y = nth b l d
  end.
Proof.
  intros H. destruct ps as [|c ps]; cbn [cuts hd].
  - cbn in H. destruct (Nat.eq_dec b (length l)) as [->|Hne]; [rewrite skipn_all; reflexivity|].
    rewrite (skipn_cons_nth A l b d) by lia. split; [lia|reflexivity].
  - destruct H as [H1 H2]. apply increasing_le in H2. rewrite (skipn_cons_nth A l b d) by lia. replace (c - b) with (S (c - S b)) by lia. cbn [firstn]. split; [lia|reflexivity].
Qed.

Lemma injected_sites (x : ltens K) ps : mpa_ok x -> forall a items tens, a <= llen x ->
  (forall b ps', ps = b :: ps' -> a <= b /\ increasing b ps' (llen x)) ->
  Forall3 (injected x) ps items tens ->
  Forall2 (fun q_item ts => Forall2 (fun o t => inject_site (piece_rank (fst (fst q_item))) (match snd (fst q_item) with [] => nth 1 (shp (List.last (lts x) dummy)) 0 | t0 :: _ => nth 1 (shp t0) 0 end) o
                                                = prod_site (piece_rank (fst (fst q_item))) t) (inject_list (snd q_item)) ts)
          (combine (combine (cuts a ps (skipn a (lts x))) (tl (cuts a ps (skipn a (lts x))))) items) tens.
Proof.
  intros [Nx Bx]. induction ps as [|b ps IH]; intros a items tens Ha Hp H; inversion_clear H as [|? it ts ? items' tens' H1 H2].
  - cbn. constructor.
  - destruct (Hp b ps eq_refl) as [Hab Hin]. assert (Hb := increasing_le _ _ _ Hin). cbn [cuts tl].
    rewrite skipn_add. replace (a + (b - a)) with b by lia.
    assert (HC := cuts_head _ (lts x) b ps dummy Hin).
    set (cs := cuts b ps (skipn b (lts x))) in *.
    assert (Ec : exists q qs, cs = q :: qs).
    { unfold cs. destruct ps; cbn [cuts]; eauto. }
    destruct Ec as [q [qs Ec]].
    specialize (IH b items' tens' Hb). fold cs in IH. rewrite Ec in *. cbn [hd] in HC. cbn [combine tl] in *. constructor.
    + cbn [fst snd]. clear IH. unfold injected in H1. revert H1. apply Forall2_weaken. intros o t. destruct o as [t'|]; [intros [-> _]; reflexivity|].
      intros [d [rest [Ed ->]]]. unfold inject_site, prod_site. f_equal.
      assert (ED : match q with [] => nth 1 (shp (List.last (lts x) dummy)) 0 | t0 :: _ => nth 1 (shp t0) 0 end = d).
      { assert (G : forall u : nd K, lt_ok u -> pdims u = d :: rest -> nth 1 (shp u) 0 = d) by (intros u Ou Pu; rewrite (lt_ok_shp u Ou), Pu; reflexivity).
        unfold mshape, llen in Ed. assert (Lx : 0 < length (lts x)) by (destruct (lts x); [congruence|cbn; lia]).
        rewrite (map_nth_lt _ _ pdims (lts x) _ dummy) in Ed by lia. destruct q as [|t0 q].
        - rewrite Nat.min_r in Ed by (unfold llen in *; lia). apply G.
          + destruct (exists_last Nx) as [l' [u Eu]]. rewrite Eu, last_last. apply (bonds_in _ _ _ _ Bx). rewrite Eu. apply in_or_app; right; left; reflexivity.
          + rewrite <- Ed. f_equal. destruct (exists_last Nx) as [l' [u Eu]]. rewrite Eu, last_last, app_length. cbn [length]. replace (length l' + 1 - 1) with (length l') by lia.
            rewrite app_nth2 by lia. rewrite Nat.sub_diag. reflexivity.
        - destruct HC as [Hlt ->]. rewrite Nat.min_l in Ed by (unfold llen in *; lia). apply G; [|exact Ed]. apply (bonds_in _ _ _ _ Bx). apply nth_In; exact Hlt. }
      rewrite ED. reflexivity.
    + apply IH; [|exact H2]. intros b' ps' ->. destruct Hin as [Q1 Q2]. split; [lia|exact Q2].
Qed.

Lemma cuts_mid_nonempty (A : Type) ps : forall a (l : list A), increasing a ps (a + length l) -> Forall (fun p => p <> []) (removelast (cuts a ps l)).
Proof.
  induction ps as [|b ps IH]; intros a l H; [constructor|]. destruct H as [H1 H2]. assert (Hb := increasing_le _ _ _ H2).
  cbn [cuts]. assert (E : exists q qs, cuts b ps (skipn (b - a) l) = q :: qs) by (destruct ps; cbn [cuts]; eauto). destruct E as [q [qs E]].
  specialize (IH b (skipn (b - a) l)). rewrite E in *. cbn [removelast]. constructor.
  - intros Z. apply (f_equal (@length A)) in Z. rewrite firstn_length in Z. cbn in Z. lia.
  - apply IH. rewrite skipn_length. replace (b + (length l - (b - a))) with (a + length l) by lia. exact H2.
Qed.

Theorem inject_spec (x : ltens K) (ps : list nat) items tens :
  mpa_ok x -> positions ps (llen x) -> Forall3 (injected x) ps items tens ->
  exists z, inject x (map Z.of_nat ps) items = Ok z /\ mpa_ok z /\
    mshape z = interleave (cuts 0 ps (mshape x)) (map (map shp) tens) /\
    lcan z = 0%Z /\ rcan z = Z.of_nat (llen z) /\
    forall is jss, Forall2 inr is (mshape x) -> Forall2 (Forall2 inr) jss (map (map shp) tens) ->
      amp (lts z) (interleave (cuts 0 ps is) jss) 0 0 = (amp (lts x) is 0 0 * kprod (zip2 (fun ts js => kprod (zip2 get ts js)) tens jss))%K.
Proof.
  intros Hx Hp Ht. pose proof Hx as [Nx Bx].
  assert (L1 : length ps = length items /\ length tens = length ps) by (clear -Ht; induction Ht as [|? ? ? ? ? ? ? ? [I1 I2]]; cbn; [auto|lia]).
  destruct L1 as [L1 L2].
  assert (Wt : Forall (Forall ndwf) tens).
  { clear -Ht. induction Ht as [|b it ts ps items tens H HF IH]; constructor; [|exact IH]. unfold injected in H. clear -H.
    induction H as [|o t os ts H HF IH]; constructor; [|exact IH]. destruct o; [destruct H; subst; assumption|]. destruct H as [d [r [_ ->]]]. apply wf_tab. }
  unfold inject. rewrite map_length, L1, Nat.eqb_refl. cbn [passert].
  assert (Adj : adjacent_lt (map Z.of_nat ps) = true).
  { unfold positions in Hp. destruct ps as [|b ps]; [reflexivity|]. clear -Hp. revert b Hp; induction ps as [|c ps IH]; intros b Hp; [reflexivity|].
    destruct Hp as [H1 H2]. change (adjacent_lt (map Z.of_nat (b :: c :: ps))) with ((Z.of_nat b <? Z.of_nat c)%Z && adjacent_lt (map Z.of_nat (c :: ps))).
    rewrite (IH c H2), andb_true_r. apply Z.ltb_lt. lia. }
  rewrite Adj. cbn [passert].
  assert (Ep : pieces_of (lts x) (0%Z :: map Z.of_nat ps ++ [Z.of_nat (llen x)]) = cuts 0 ps (lts x)).
  { apply (pieces_cuts _ (lts x) ps 0). destruct ps as [|b ps]; [right; right; split; [reflexivity|lia]|]. right; left. exists b, ps. split; [reflexivity|]. split; [lia|exact Hp]. }
  rewrite Ep. assert (Em := inject_merge_eq x (nth 1 (shp (List.last (lts x) dummy)) 0) tens (cuts 0 ps (lts x)) items).
  rewrite Em; [|rewrite cuts_length; lia|].
  2:{ apply (injected_sites x ps Hx 0 items tens); [lia| |exact Ht]. intros b ps' ->. split; [lia|exact Hp]. }
  destruct (merged_spec tens (cuts 0 ps (lts x)) 1 1) as [M1 [M2 M3]].
  - rewrite cuts_length. lia.
  - rewrite cuts_concat. exact Bx.
  - right; right; reflexivity.
  - unfold positions in Hp. destruct ps as [|b ps]; [constructor|]. cbn [cuts tl]. rewrite Nat.sub_0_r. apply cuts_mid_nonempty. rewrite skipn_length.
    assert (Hb := increasing_le _ _ _ Hp). unfold llen in *. replace (b + (length (lts x) - b)) with (length (lts x)) by lia. exact Hp.
  - exact Wt.
  - assert (Nm : merged (cuts 0 ps (lts x)) tens <> []).
    { intros E. apply Nx. rewrite <- (cuts_concat _ ps 0 (lts x)). clear -E L2. revert E L2. generalize (cuts_length _ ps 0 (lts x)). generalize (cuts 0 ps (lts x)). revert ps.
      induction tens as [|ts tens IH]; intros ps cs Hc E L2; destruct cs as [|c cs]; try reflexivity.
      - cbn in E. subst c. destruct ps; [|discriminate]. destruct cs; [reflexivity|discriminate].
      - cbn [merged] in E. apply app_eq_nil in E. destruct E as [-> E]. apply app_eq_nil in E. destruct E as [_ E]. cbn [concat app]. destruct ps as [|b ps]; [discriminate|].
        apply (IH ps); cbn in *; [lia|exact E|lia]. }
    destruct (mpa_new_chain _ Nm M1) as [z [Ez [Oz [Lz [C1 C2]]]]]. exists z. split; [exact Ez|]. split; [exact Oz|]. split.
    + unfold mshape at 1. rewrite Lz, M2. unfold mshape. rewrite cuts_map. reflexivity.
    + split; [exact C1|]. split; [unfold llen; rewrite Lz; exact C2|]. intros is jss His Hj. rewrite Lz. rewrite M3; [|rewrite <- cuts_map; apply cuts_Forall2; exact His|exact Hj|lia|lia].
      rewrite !cuts_concat. reflexivity.
Qed.

Theorem inject_unordered (x : ltens K) (ps : list Z) items : length ps = length items -> adjacent_lt ps = false -> inject x ps items = Err AssertionError.
Proof. intros H1 H2. unfold inject. rewrite H1, Nat.eqb_refl, H2. reflexivity. Qed.
End Inject.
