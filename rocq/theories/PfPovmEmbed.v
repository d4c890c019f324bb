(** [MPPovm.eye], [embed], [block] and [repeat] (mppovm.py 262-354). *)
From Verif Require Export PfSymm.
Open Scope nat_scope.

Section Embed.
Context {K : StarRing}.
Add Ring Kr : (k_ring K).

Lemma zip2_app {A B C : Type} (f : A -> B -> C) l1 : forall l2 m1 m2, length l1 = length l2 -> zip2 f (l1 ++ m1) (l2 ++ m2) = zip2 f l1 l2 ++ zip2 f m1 m2.
Proof. induction l1 as [|a l1 IH]; intros [|b l2] m1 m2 L; try discriminate; [reflexivity|]. cbn. f_equal. apply IH. cbn in L; lia. Qed.
Lemma kprod_cons (a : K) l : kprod (a :: l) = (a * kprod l)%K. Proof. reflexivity. Qed.
Lemma kprod_app (l m : list K) : kprod (l ++ m) = (kprod l * kprod m)%K.
Proof. induction l as [|a l IH]; [cbn [app]; change (kprod (@nil K)) with (@k1 K); ring|]. cbn [app]. rewrite !kprod_cons, IH. ring. Qed.
Lemma Forall_firstn' {A : Type} (P : A -> Prop) n l : Forall P l -> Forall P (firstn n l).
Proof. intros H. revert n. induction H; intros [|n]; cbn; constructor; auto. Qed.
Lemma Forall_skipn' {A : Type} (P : A -> Prop) n l : Forall P l -> Forall P (skipn n l).
Proof. intros H. revert n. induction H; intros [|n]; cbn; auto. Qed.

(** ** Chains of MP-POVMs *)
Definition blk_ok (b : list nat * (list nat * list nat)) (p : list nat * list nat) : Prop :=
  inr (fst b) (fst p) /\ inr (fst (snd b)) (snd p) /\ inr (snd (snd b)) (snd p).
Definition bks (bs : list (list nat * (list nat * list nat))) := flat_map fst bs.
Definition bis (bs : list (list nat * (list nat * list nat))) := flat_map (fun b => fst (snd b)) bs.
Definition bjs (bs : list (list nat * (list nat * list nat))) := flat_map (fun b => snd (snd b)) bs.
Definition btri (b : list nat * (list nat * list nat)) := triples (fst b) (fst (snd b)) (snd (snd b)).

Lemma blks bs : forall ps, Forall2 blk_ok bs ps -> Forall (fun p => length (fst p) = length (snd p)) ps -> triples (bks bs) (bis bs) (bjs bs) = concat (map btri bs).
Proof.
  induction bs as [|b bs IH]; intros ps H L; inversion H as [|? p ? ps' (H1 & H2 & H3) H']; subst; [reflexivity|]. inversion L; subst. cbn [bks bis bjs flat_map map concat].
  apply inr_length in H1, H2, H3. rewrite triples_app by lia. f_equal. apply (IH ps'); assumption.
Qed.
Lemma chain_pos (xs : list (ltens K)) z : Forall mpa_pos xs -> mpa_ok z -> lts z = flat_map lts xs -> mpa_pos z.
Proof.
  intros H Hz L. split; [exact Hz|]. rewrite L. clear L Hz. induction H as [|x xs [_ Hx] H IH]; cbn [flat_map]; [constructor|]. apply Forall_app. split; assumption.
Qed.
Lemma flat_tshape (ps : list (list nat * list nat)) : Forall (fun p => length (fst p) = length (snd p)) ps ->
  flat_map (fun p => tshape (fst p) (snd p)) ps = tshape (flat_map fst ps) (flat_map snd ps) /\ length (flat_map fst ps) = length (flat_map snd ps).
Proof.
  induction 1 as [|p ps L H [IH1 IH2]]; [split; reflexivity|]. cbn [flat_map]. rewrite tshape_app by exact L. rewrite IH1, !app_length, L, IH2. auto.
Qed.
Theorem povm_chain (xs : list (ltens K)) (ps : list (list nat * list nat)) : xs <> [] -> Forall2 (fun x p => povm_ok x (fst p) (snd p)) xs ps ->
  exists z, mchain xs = Ok z /\ povm_checks z = Ok z /\ povm_ok z (flat_map fst ps) (flat_map snd ps) /\ canonical_form z = (0%Z, Z.of_nat (llen z)) /\
    lts z = flat_map lts xs /\
    forall bs, Forall2 blk_ok bs ps -> entry z (triples (bks bs) (bis bs) (bjs bs)) = kprod (zip2 (fun x b => entry x (btri b)) xs bs).
Proof.
  intros Hne H.
  assert (Hok : Forall mpa_pos xs). { clear Hne. induction H as [|x p xs ps Hx H IH]; constructor; [apply Hx|assumption]. }
  destruct (mchain_spec xs Hne) as (z & Ez & Hz & Lz & Sz & Cz & Az). { eapply Forall_impl; [|exact Hok]. intros x Hx. apply Hx. }
  assert (Lp : Forall (fun p => length (fst p) = length (snd p)) ps). { clear - H. induction H as [|x p xs ps Hx H IH]; constructor; [apply Hx|assumption]. }
  destruct (flat_tshape ps Lp) as [T1 T2].
  assert (Sz' : mshape z = tshape (flat_map fst ps) (flat_map snd ps)).
  { rewrite Sz, <- T1. clear - H. induction H as [|x p xs ps Hx H IH]; [reflexivity|]. cbn [flat_map]. rewrite IH. f_equal. apply Hx. }
  assert (F255 : Forall (fun n => n <= 255) (flat_map fst ps)).
  { clear - H. induction H as [|x p xs ps Hx H IH]; [constructor|]. cbn [flat_map]. apply Forall_app. split; [apply Hx|exact IH]. }
  exists z. split; [exact Ez|]. split; [apply (povm_checks_ok z (flat_map fst ps) (flat_map snd ps)); assumption|].
  assert (Pz : mpa_pos z) by (eapply chain_pos; eassumption).
  split.
  { split; [exact Pz|]. split; [|auto]. unfold cform_ok, cf_ok. unfold canonical_form in Cz. injection Cz as -> ->. destruct Hz as [Hn _]. unfold llen. destruct (lts z); [congruence|]. cbn [length]. lia. }
  split; [exact Cz|]. split; [exact Lz|]. intros bs Hb. rewrite (blks bs ps Hb Lp).
  assert (Vb : Forall2 (fun is x => Forall2 inr is (mshape x)) (map btri bs) xs).
  { clear - H Hb. revert bs Hb. induction H as [|x p xs ps Hx H IH]; intros bs Hb; inversion Hb as [|b ? bs' ? (B1 & B2 & B3) Hb']; subst; [constructor|]. cbn [map]. constructor; [|apply IH; exact Hb'].
    destruct Hx as (_ & _ & Lx & Sx & _). rewrite Sx. apply triples_valid; assumption. }
  rewrite entry_amp; [|exact Hz|rewrite Sz; clear - Vb].
  - rewrite Az by exact Vb. clear - Vb Hok. remember (map btri bs) as iss eqn:E. revert bs E Hok. induction Vb as [|is x iss xs Hx Vb IH]; intros [|b bs] E Hok; try discriminate; [reflexivity|].
    injection E as -> E. inversion Hok; subst. cbn [zip2 kprod fold_right]. change (fold_right kmul k1) with (@kprod K). rewrite <- IH by auto. rewrite entry_amp by (auto; apply H1). reflexivity.
  - unfold valid_idx. induction Vb as [|is x iss xs Hx Vb IH]; cbn [concat flat_map]; [constructor|]. apply Forall2_app; assumption.
Qed.

(** ** [MPPovm.eye] *)
Lemma get_eye1 d i j : i < d -> j < d -> get (reshape (@eye K d) [1; d; d]) [0; i; j] = delta i j.
Proof.
  intros Hi Hj. rewrite (get_reshape' _ [1; d; d] [0; i; j] [i; j]).
  - apply get_eye; assumption.
  - cbn. lia.
Qed.
Theorem povm_eye_spec ds : ds <> [] -> Forall (fun d => 0 < d) ds ->
  exists z, povm_eye (K:=K) ds = Ok z /\ povm_ok z (repeat 1 (length ds)) ds /\
    forall is js, inr is ds -> inr js ds -> entry z (triples (repeat 0 (length ds)) is js) = list_delta is js.
Proof.
  intros Hne Hpos. unfold povm_eye. destruct (from_kron_spec (K:=K) (map (fun d => reshape (eye d) [1; d; d]) ds)) as (z & Ez & Hz & Sz & Rz & Cz & Az).
  - destruct ds; [congruence|discriminate].
  - rewrite Forall_map. apply Forall_forall. intros d _. apply wf_reshape; [apply wf_tab|]. cbn [shp eye tab]. rewrite !size_cons, size_nil. lia.
  - rewrite map_map in Sz. cbn [shp reshape] in Sz.
    assert (St : mshape z = tshape (repeat 1 (length ds)) ds). { rewrite Sz. clear. induction ds as [|d ds IH]; [reflexivity|]. cbn [map length repeat]. unfold tshape in *. cbn [zip2]. rewrite IH. reflexivity. }
    assert (Lr : length (repeat 1 (length ds)) = length ds) by apply repeat_length.
    assert (F : Forall (fun n => n <= 255) (repeat 1 (length ds))) by (apply Forall_forall; intros n Hn; apply repeat_spec in Hn; lia).
    exists z. rewrite Ez. cbn [bind]. rewrite (povm_checks_ok z (repeat 1 (length ds)) ds) by assumption. split; [reflexivity|]. split.
    + split; [|split; [|auto]].
      * apply mpa_pos_parts; [exact Hz|eapply Forall_impl; [|exact Rz]; cbn; lia|]. rewrite Sz, Forall_map. eapply Forall_impl; [|exact Hpos]. intros d Hd. cbn beta in Hd. rewrite !size_cons, size_nil. nia.
      * unfold cform_ok, cf_ok. unfold canonical_form in Cz. injection Cz as -> ->. rewrite map_length. assert (El : llen z = length ds) by (rewrite <- mshape_length, Sz; apply map_length). rewrite El. destruct ds; [congruence|]. cbn [length]. lia.
    + intros is js Hi Hj. assert (V : Forall2 inr (triples (repeat 0 (length ds)) is js) (tshape (repeat 1 (length ds)) ds)).
      { apply triples_valid; auto. clear. induction ds; cbn [length repeat]; [constructor|]. constructor; [lia|assumption]. }
      rewrite entry_amp by (auto; unfold valid_idx; rewrite St; exact V). rewrite Az by (rewrite map_map; cbn [shp reshape]; rewrite <- Sz, St; exact V).
      clear - Hi Hj. revert is js Hi Hj. induction ds as [|d ds IH]; intros is js Hi Hj; inversion Hi as [|i ? is' ? Hi1 Hi2]; inversion Hj as [|j ? js' ? Hj1 Hj2]; subst.
      * unfold list_delta. rewrite list_eqb_refl. reflexivity.
      * cbn [length repeat map]. rewrite triples_cons. cbn [zip2 kprod fold_right]. change (fold_right kmul k1) with (@kprod K). rewrite IH by assumption. rewrite get_eye1 by assumption.
        unfold list_delta, delta. rewrite list_eqb_cons. destruct (Nat.eqb i j); cbn [andb]; ring.
Qed.
Theorem povm_eye_complete ds : ds <> [] -> Forall (fun d => 0 < d) ds -> exists z, povm_eye (K:=K) ds = Ok z /\ sums_to_id z /\ nsoutdims z = [].
Proof.
  intros H1 H2. destruct (povm_eye_spec ds H1 H2) as (z & Ez & Hz & Az). exists z. split; [exact Ez|]. destruct (povm_dims _ _ _ Hz) as (D1 & D2 & _). split.
  - intros is js Hi Hj. rewrite D2 in *. rewrite <- Az by assumption. rewrite D1. remember (length ds) as n. clear. 
    assert (G : forall f : list nat -> K, msum (repeat 1 n) f = f (repeat 0 n)).
    { induction n as [|n IH]; intros f; cbn [repeat msum]; [reflexivity|]. rewrite bigsum_1. apply IH. }
    apply (G (fun ks => entry z (triples ks is js))).
  - unfold nsoutdims. rewrite D1. clear. induction (length ds) as [|m IH]; [reflexivity|exact IH].
Qed.

(** ** [embed] *)
Lemma inr_repeat0 n : inr (repeat 0 n) (repeat 1 n).
Proof. induction n; cbn; [constructor|]. constructor; [lia|assumption]. Qed.
Lemma pyclamp_nn len z : (0 <= z <= Z.of_nat len)%Z -> pyclamp len z = Z.to_nat z.
Proof. intros H. unfold pyclamp. destruct (Z.ltb_spec z 0); [lia|]. destruct (Z.ltb_spec (Z.of_nat len) z); [lia|reflexivity]. Qed.
Lemma pyclamp_neg len z : (z < 0 <= z + Z.of_nat len)%Z -> pyclamp len z = Z.to_nat (z + Z.of_nat len).
Proof. intros H. unfold pyclamp. destruct (Z.ltb_spec z 0); [|lia]. destruct (Z.ltb_spec (z + Z.of_nat len) 0); [lia|reflexivity]. Qed.
Lemma pyslice_to {A : Type} (l : list A) s : s <= length l -> pyslice l 0 (Z.of_nat s) = firstn s l.
Proof. intros H. unfold pyslice. rewrite !pyclamp_nn by lia. rewrite Nat2Z.id. cbn [Z.to_nat skipn]. rewrite Nat.sub_0_r. reflexivity. Qed.
Lemma pyslice_from {A : Type} (l : list A) r : 0 < r <= length l -> pyslice l (- Z.of_nat r) (Z.of_nat (length l)) = skipn (length l - r) l.
Proof.
  intros H. unfold pyslice. rewrite (pyclamp_neg _ (- Z.of_nat r)), pyclamp_nn by lia. rewrite Nat2Z.id. replace (Z.to_nat (- Z.of_nat r + Z.of_nat (length l))) with (length l - r) by lia.
  apply firstn_all2. rewrite skipn_length. lia.
Qed.
Definition ld_list (ld : ldarg) (n : nat) : list nat := match ld with LdSeq l => l | LdInt d => repeat d n end.
(** [z] is [x] on the sites from [s] on and the identity, with one outcome, elsewhere. *)
Definition embedded (x z : ltens K) (ld : list nat) (s : nat) : Prop :=
  let dl := firstn s ld in let dr := skipn (s + llen x) ld in
  let ol := repeat 0 (length dl) in let or := repeat 0 (length dr) in
  outdims z = repeat 1 (length dl) ++ outdims x ++ repeat 1 (length dr) /\
  hdims z = dl ++ hdims x ++ dr /\ nsoutdims z = nsoutdims x /\
  (forall ks l1 is r1 l2 js r2, inr ks (outdims x) -> inr l1 dl -> inr l2 dl -> inr is (hdims x) -> inr js (hdims x) -> inr r1 dr -> inr r2 dr ->
     entry z (triples (ol ++ ks ++ or) (l1 ++ is ++ r1) (l2 ++ js ++ r2)) = (list_delta l1 l2 * entry x (triples ks is js) * list_delta r1 r2)%K) /\
  forall rho ks, inr ks (outdims x) -> mborn z rho (ol ++ ks ++ or) = mborn x (mred (hdims z) rho s (s + llen x)) ks.

Lemma bigd_ones n : bigd (repeat 1 n) = [].
Proof. induction n; [reflexivity|]. cbn. assumption. Qed.
Lemma mborn_embed (x z : ltens K) dl dr ol or : hdims z = dl ++ hdims x ++ dr ->
  (forall ks l1 is r1 l2 js r2, inr ks (outdims x) -> inr l1 dl -> inr l2 dl -> inr is (hdims x) -> inr js (hdims x) -> inr r1 dr -> inr r2 dr ->
     entry z (triples (ol ++ ks ++ or) (l1 ++ is ++ r1) (l2 ++ js ++ r2)) = (list_delta l1 l2 * entry x (triples ks is js) * list_delta r1 r2)%K) ->
  forall rho ks, inr ks (outdims x) -> mborn z rho (ol ++ ks ++ or) = mborn x (mred (hdims z) rho (length dl) (length dl + length (hdims x))) ks.
Proof.
  intros D E rho ks Hk. unfold mborn. rewrite D.
  assert (M : forall is js, mred (dl ++ hdims x ++ dr) rho (length dl) (length dl + length (hdims x)) is js =
    msum dl (fun l => msum dr (fun r => rho (l ++ is ++ r) (l ++ js ++ r)))).
  { intros is js. unfold mred. rewrite firstn_app, firstn_all, Nat.sub_diag, firstn_O, app_nil_r. rewrite app_assoc. rewrite skipn_app, skipn_all2 by (rewrite app_length; lia).
    rewrite app_length, Nat.sub_diag. reflexivity. }
  rewrite msum_app. rewrite (msum_ext _ _ (fun l1 => msum (hdims x) (fun is => msum (hdims x) (fun js => entry x (triples ks is js) * msum dr (fun r => rho (l1 ++ js ++ r) (l1 ++ is ++ r))))%K)).
  - rewrite msum_swap. apply msum_ext. intros is Hi. rewrite msum_swap. apply msum_ext. intros js Hj. rewrite M. rewrite msum_mul_l. reflexivity.
  - intros l1 Hl1. rewrite msum_app. apply msum_ext. intros is Hi.
    rewrite (msum_ext dr _ (fun r1 => msum (hdims x) (fun js => entry x (triples ks is js) * rho (l1 ++ js ++ r1) (l1 ++ is ++ r1)))%K).
    + rewrite msum_swap. apply msum_ext. intros js Hj. rewrite msum_mul_l. reflexivity.
    + intros r1 Hr1. rewrite msum_app.
      rewrite (msum_ext dl _ (fun l2 => list_delta l1 l2 * msum (hdims x) (fun js => entry x (triples ks is js) * rho (l2 ++ js ++ r1) (l1 ++ is ++ r1)))%K).
      * rewrite (msum_list_delta dl l1 (fun l2 => msum (hdims x) (fun js => entry x (triples ks is js) * rho (l2 ++ js ++ r1) (l1 ++ is ++ r1)))%K) by exact Hl1. reflexivity.
      * intros l2 Hl2. rewrite msum_app, <- msum_mul_l. apply msum_ext. intros js Hj.
        rewrite (msum_ext dr _ (fun r2 => list_delta r1 r2 * (list_delta l1 l2 * (entry x (triples ks is js) * rho (l2 ++ js ++ r2) (l1 ++ is ++ r1))))%K).
        -- rewrite (msum_list_delta dr r1 (fun r2 => list_delta l1 l2 * (entry x (triples ks is js) * rho (l2 ++ js ++ r2) (l1 ++ is ++ r1)))%K) by exact Hr1. reflexivity.
        -- intros r2 Hr2. rewrite E by assumption. ring.
Qed.
Theorem embed_spec (x : ltens K) ns hs n s ld : povm_ok x ns hs -> length (ld_list ld n) = n -> s + llen x <= n -> Forall (fun d => 0 < d) (ld_list ld n) ->
  exists z, embed x (Z.of_nat n) (Z.of_nat s) ld = Ok z /\
    povm_ok z (repeat 1 s ++ ns ++ repeat 1 (n - (s + llen x))) (firstn s (ld_list ld n) ++ hs ++ skipn (s + llen x) (ld_list ld n)) /\
    llen z = n /\ embedded x z (ld_list ld n) s.
Proof.
  intros Hp Ll Hs Hpos. destruct (povm_dims _ _ _ Hp) as (D1 & D2 & D3). pose proof (povm_len _ _ _ Hp) as Hlen.
  assert (Lnh : length ns = length hs) by apply Hp. set (L := ld_list ld n) in *. set (dl := firstn s L). set (dr := skipn (s + llen x) L).
  assert (Ldl : length dl = s) by (unfold dl; rewrite firstn_length; lia). assert (Ldr : length dr = n - (s + llen x)) by (unfold dr; rewrite skipn_length; lia).
  assert (Pl : Forall (fun d => 0 < d) dl) by (apply Forall_firstn'; exact Hpos). assert (Pr : Forall (fun d => 0 < d) dr) by (apply Forall_skipn'; exact Hpos).
  pose (el := if Nat.ltb 0 s then match povm_eye (K:=K) dl with Ok e => [e] | Err _ => [] end else []).
  pose (er := if Nat.ltb 0 (n - (s + llen x)) then match povm_eye (K:=K) dr with Ok e => [e] | Err _ => [] end else []).
  assert (Red : embed x (Z.of_nat n) (Z.of_nat s) ld = do z <- mchain (el ++ [x] ++ er); povm_checks z).
  { unfold embed. rewrite Nat2Z.id. change (match ld with LdInt d => repeat d n | LdSeq l => l end) with L. rewrite Ll. rewrite Z.eqb_refl. cbn [passert].
    replace (0 <=? Z.of_nat n - Z.of_nat (llen x) - Z.of_nat s)%Z with true by (symmetry; apply Z.leb_le; lia). cbn [passert].
    replace (Z.of_nat n - Z.of_nat (llen x) - Z.of_nat s)%Z with (Z.of_nat (n - (s + llen x))) by lia.
    rewrite pyslice_to by lia. fold dl.
    assert (El : (if (0 <? Z.of_nat s)%Z then do e <- povm_eye (K:=K) dl; Ok [e] else Ok []) = Ok el).
    { unfold el. destruct (Nat.ltb_spec 0 s) as [H0|H0]; [|replace s with 0 by lia; reflexivity]. replace (0 <? Z.of_nat s)%Z with true by (symmetry; apply Z.ltb_lt; lia).
      destruct (povm_eye_spec dl) as (e & Ee & _); [intros E0; rewrite E0 in Ldl; cbn in Ldl; lia|exact Pl|]. rewrite Ee. reflexivity. }
    rewrite El. cbn [bind].
    assert (Er : (if (0 <? Z.of_nat (n - (s + llen x)))%Z then do e <- povm_eye (K:=K) (pyslice L (- Z.of_nat (n - (s + llen x))) (Z.of_nat n)); Ok [e] else Ok []) = Ok er).
    { unfold er. destruct (Nat.ltb_spec 0 (n - (s + llen x))) as [H0|H0]; [|replace (n - (s + llen x)) with 0 by lia; reflexivity]. replace (0 <? Z.of_nat (n - (s + llen x)))%Z with true by (symmetry; apply Z.ltb_lt; lia).
      rewrite <- Ll at 2. rewrite pyslice_from by lia. replace (length L - (n - (s + llen x))) with (s + llen x) by lia. fold dr.
      destruct (povm_eye_spec dr) as (e & Ee & _); [intros E0; rewrite E0 in Ldr; cbn in Ldr; lia|exact Pr|]. rewrite Ee. reflexivity. }
    rewrite Er. reflexivity. }
  assert (Hel : exists psl, Forall2 (fun x p => povm_ok x (fst p) (snd p)) el psl /\ flat_map fst psl = repeat 1 s /\ flat_map snd psl = dl /\
     forall l1 l2, inr l1 dl -> inr l2 dl -> exists bs, Forall2 blk_ok bs psl /\ bks bs = repeat 0 s /\ bis bs = l1 /\ bjs bs = l2 /\ kprod (zip2 (fun x b => entry x (btri b)) el bs) = list_delta l1 l2).
  { unfold el. destruct (Nat.ltb_spec 0 s) as [H0|H0].
    - destruct (povm_eye_spec dl) as (e & Ee & He & Ae); [intros E0; rewrite E0 in Ldl; cbn in Ldl; lia|exact Pl|]. rewrite Ee. rewrite Ldl in *. exists [(repeat 1 s, dl)]. split; [apply Forall2_cons; [exact He|constructor]|]. cbn [flat_map fst snd]. rewrite !app_nil_r. split; [reflexivity|]. split; [reflexivity|].
      intros l1 l2 H1 H2. exists [(repeat 0 s, (l1, l2))]. unfold bks, bis, bjs. cbn [flat_map fst snd]. rewrite !app_nil_r. split; [apply Forall2_cons; [|constructor]; split; [apply inr_repeat0|split; assumption]|]. do 3 (split; [reflexivity|]). cbn [zip2 kprod fold_right btri fst snd]. unfold btri. cbn [fst snd]. rewrite Ae by assumption. ring.
    - assert (Es : s = 0) by lia. exists []. assert (Ed : dl = []) by (apply length_zero_iff_nil; lia). rewrite Ed, Es. split; [constructor|]. do 2 (split; [reflexivity|]). intros l1 l2 H1 H2. destruct l1; [|inversion H1]. destruct l2; [|inversion H2]. exists []. split; [constructor|]. do 3 (split; [reflexivity|]). reflexivity. }
  assert (Her : exists psr, Forall2 (fun x p => povm_ok x (fst p) (snd p)) er psr /\ flat_map fst psr = repeat 1 (n - (s + llen x)) /\ flat_map snd psr = dr /\
     forall l1 l2, inr l1 dr -> inr l2 dr -> exists bs, Forall2 blk_ok bs psr /\ bks bs = repeat 0 (n - (s + llen x)) /\ bis bs = l1 /\ bjs bs = l2 /\ kprod (zip2 (fun x b => entry x (btri b)) er bs) = list_delta l1 l2).
  { unfold er. set (m := n - (s + llen x)) in *. destruct (Nat.ltb_spec 0 m) as [H0|H0].
    - destruct (povm_eye_spec dr) as (e & Ee & He & Ae); [intros E0; rewrite E0 in Ldr; cbn in Ldr; lia|exact Pr|]. rewrite Ee. rewrite Ldr in *. exists [(repeat 1 m, dr)]. split; [apply Forall2_cons; [exact He|constructor]|]. cbn [flat_map fst snd]. rewrite !app_nil_r. split; [reflexivity|]. split; [reflexivity|].
      intros l1 l2 H1 H2. exists [(repeat 0 m, (l1, l2))]. unfold bks, bis, bjs. cbn [flat_map fst snd]. rewrite !app_nil_r. split; [apply Forall2_cons; [|constructor]; split; [apply inr_repeat0|split; assumption]|]. do 3 (split; [reflexivity|]). cbn [zip2 kprod fold_right]. unfold btri. cbn [fst snd]. rewrite Ae by assumption. ring.
    - assert (Es : m = 0) by lia. exists []. assert (Ed : dr = []) by (apply length_zero_iff_nil; lia). rewrite Ed, Es. split; [constructor|]. do 2 (split; [reflexivity|]). intros l1 l2 H1 H2. destruct l1; [|inversion H1]. destruct l2; [|inversion H2]. exists []. split; [constructor|]. do 3 (split; [reflexivity|]). reflexivity. }
  destruct Hel as (psl & Fl & O1 & P1 & Bl). destruct Her as (psr & Fr & O2 & P2 & Br).
  destruct (povm_chain (el ++ [x] ++ er) (psl ++ [(ns, hs)] ++ psr)) as (z & Ez & Cz & Pz & Fz & _ & Az).
  - destruct el; discriminate.
  - apply Forall2_app; [exact Fl|]. apply Forall2_app; [|exact Fr]. apply Forall2_cons; [exact Hp|constructor].
  - rewrite !flat_map_app in Pz. cbn [flat_map fst snd] in Pz. rewrite !app_nil_r in Pz. rewrite O1, O2, P1, P2 in Pz.
    exists z. rewrite Red, Ez. cbn [bind]. split; [exact Cz|]. split; [exact Pz|]. destruct (povm_dims _ _ _ Pz) as (E1 & E2 & E3).
    split. { rewrite E3, !app_length, !repeat_length. lia. }
    unfold embedded. fold dl dr. rewrite Ldl, Ldr. rewrite D1, D2.
    assert (Ent : forall ks l1 is r1 l2 js r2, inr ks ns -> inr l1 dl -> inr l2 dl -> inr is hs -> inr js hs -> inr r1 dr -> inr r2 dr ->
      entry z (triples (repeat 0 s ++ ks ++ repeat 0 (n - (s + llen x))) (l1 ++ is ++ r1) (l2 ++ js ++ r2)) = (list_delta l1 l2 * entry x (triples ks is js) * list_delta r1 r2)%K).
    { intros ks l1 is r1 l2 js r2 Hk Hl1 Hl2 Hi Hj Hr1 Hr2. destruct (Bl l1 l2 Hl1 Hl2) as (bl & Vbl & K1 & I1 & J1 & A1). destruct (Br r1 r2 Hr1 Hr2) as (br & Vbr & K2 & I2 & J2 & A2).
      specialize (Az (bl ++ [(ks, (is, js))] ++ br)). 
      assert (Eb : bks (bl ++ [(ks, (is, js))] ++ br) = repeat 0 s ++ ks ++ repeat 0 (n - (s + llen x)) /\ bis (bl ++ [(ks, (is, js))] ++ br) = l1 ++ is ++ r1 /\ bjs (bl ++ [(ks, (is, js))] ++ br) = l2 ++ js ++ r2).
      { unfold bks, bis, bjs in *. rewrite !flat_map_app. cbn [flat_map fst snd]. rewrite !app_nil_r. rewrite K1, K2, I1, I2, J1, J2. auto. }
      destruct Eb as (Q1 & Q2 & Q3). rewrite Q1, Q2, Q3 in Az. rewrite Az.
      - rewrite zip2_app by (apply Forall2_len in Vbl; apply Forall2_len in Fl; lia). rewrite kprod_app, A1. cbn [zip2 app]. rewrite kprod_cons. unfold btri. cbn [fst snd]. change (fun (x0 : ltens K) (b : list nat * (list nat * list nat)) => entry x0 (triples (fst b) (fst (snd b)) (snd (snd b)))) with (fun (x0 : ltens K) b => entry x0 (btri b)). rewrite A2. ring.
      - apply Forall2_app; [exact Vbl|]. apply Forall2_cons; [split; [exact Hk|split; assumption]|exact Vbr]. }
    split; [rewrite E1; reflexivity|]. split; [rewrite E2; reflexivity|]. split.
    { unfold nsoutdims. rewrite E1, D1. change (filter (fun d => Nat.ltb 1 d)) with bigd. rewrite !bigd_app, !bigd_ones, app_nil_r. reflexivity. }
    split; [exact Ent|].
    intros rho ks Hk. pose proof (mborn_embed x z dl dr (repeat 0 s) (repeat 0 (n - (s + llen x)))) as Q. rewrite D1, D2, E2 in Q.
    rewrite (Q eq_refl Ent rho ks Hk). rewrite E2, Ldl. replace (s + length hs) with (s + llen x) by lia. reflexivity.
Qed.
Theorem embed_errors (x : ltens K) n s ld : length (ld_list ld (Z.to_nat n)) <> Z.to_nat n \/ (n < Z.of_nat (llen x) + s)%Z -> (0 <= n)%Z -> embed x n s ld = Err AssertionError.
Proof.
  intros H Hn. unfold embed. change (match ld with LdInt d => repeat d (Z.to_nat n) | LdSeq l => l end) with (ld_list ld (Z.to_nat n)).
  destruct (Z.eqb_spec (Z.of_nat (length (ld_list ld (Z.to_nat n)))) n) as [E|E]; cbn [passert]; [|reflexivity].
  destruct (Z.leb_spec 0 (n - Z.of_nat (llen x) - s)) as [F|F]; cbn [passert]; [|reflexivity]. destruct H; lia.
Qed.

(** ** [block] *)
Lemma repeat_of (A : Type) (l : list A) x n : length l = n -> (forall y, In y l -> y = x) -> l = repeat x n.
Proof. intros <-. induction l as [|y l IH]; intros H; [reflexivity|]. cbn [length repeat]. rewrite <- IH by (intros; apply H; right; assumption). f_equal. apply H. left. reflexivity. Qed.
Lemma skipn_repeat {A : Type} (a : A) k : forall n, skipn k (repeat a n) = repeat a (n - k).
Proof. induction k as [|k IH]; intros [|n]; cbn; auto. Qed.
Lemma firstn_repeat {A : Type} (a : A) k : forall n, k <= n -> firstn k (repeat a n) = repeat a k.
Proof. induction k as [|k IH]; intros [|n] H; cbn; auto; [lia|]. f_equal. apply IH. lia. Qed.
Lemma pyget0 {A : Type} (l : list A) d : l <> [] -> pyget l 0 = Ok (hd d l).
Proof. destruct l; [congruence|reflexivity]. Qed.
Theorem block_spec (x : ltens K) ns hs n d : povm_ok x ns hs -> Forall (fun e => e = d) hs -> llen x <= n ->
  exists zs, block x (Z.of_nat n) = Ok zs /\
    Forall2 (fun s z => embed x (Z.of_nat n) (Z.of_nat s) (LdInt d) = Ok z /\ llen z = n /\ povm_ok z (repeat 1 s ++ ns ++ repeat 1 (n - (s + llen x))) (repeat d n) /\ embedded x z (repeat d n) s) (seq 0 (n - llen x + 1)) zs.
Proof.
  intros Hp Hd Hn. destruct (povm_dims _ _ _ Hp) as (D1 & D2 & D3). pose proof (povm_len _ _ _ Hp) as Hlen.
  assert (Lnh : length ns = length hs) by apply Hp.
  assert (Er : hs = repeat d (length hs)). { apply repeat_of; [reflexivity|]. apply Forall_forall. exact Hd. }
  assert (Dp : 0 < d).
  { destruct Hp as (Pp & _ & _ & Sp & _). destruct (mpa_pos_sizes x Pp) as [_ Q]. rewrite Sp in Q. destruct ns as [|a ns], hs as [|h hs]; cbn in Lnh, Hlen; try lia. inversion Hd; subst. unfold tshape in Q. cbn [zip2] in Q. inversion Q as [|? ? Q1 _]; subst. rewrite !size_cons in Q1. nia. }
  unfold block. rewrite D2, (pyget0 hs 0) by (destruct hs; [cbn in Hlen; lia|discriminate]). cbn [bind].
  assert (Eh : hd 0 hs = d) by (destruct Hd; [cbn in Hlen; lia|assumption]). rewrite Eh.
  replace (forallb (fun e => Nat.eqb e d) hs) with true by (symmetry; apply forallb_forall; intros e He; rewrite Forall_forall in Hd; apply Nat.eqb_eq; auto). cbn [passert].
  replace (pyrange 0 (Z.of_nat n - Z.of_nat (llen x) + 1) 1) with (map Z.of_nat (seq 0 (n - llen x + 1))).
  2:{ replace (Z.of_nat n - Z.of_nat (llen x) + 1)%Z with (Z.of_nat (n - llen x + 1)) by lia. rewrite pyrange_up by lia. rewrite Z.sub_0_r, Nat2Z.id. apply map_ext. intros k. reflexivity. }
  assert (G : forall l, Forall (fun s => s + llen x <= n) l ->
     exists zs, mapM (fun s => embed x (Z.of_nat n) s (LdInt d)) (map Z.of_nat l) = Ok zs /\
       Forall2 (fun s z => embed x (Z.of_nat n) (Z.of_nat s) (LdInt d) = Ok z /\ llen z = n /\ povm_ok z (repeat 1 s ++ ns ++ repeat 1 (n - (s + llen x))) (repeat d n) /\ embedded x z (repeat d n) s) l zs).
  { induction l as [|s l IH]; intros Hl; [exists []; split; [reflexivity|constructor]|]. pose proof (Forall_inv Hl) as Hs. pose proof (Forall_inv_tail Hl) as Hl'. cbn beta in Hs. destruct (IH Hl') as (zs & Ezs & Fzs).
    destruct (embed_spec x ns hs n s (LdInt d) Hp) as (z & Ez & Pz & Lz & Bz); [apply repeat_length|exact Hs|apply Forall_forall; intros e He; apply repeat_spec in He; lia|].
    cbn [map mapM]. rewrite Ez. cbn [bind]. rewrite Ezs. exists (z :: zs). split; [reflexivity|]. constructor; [|exact Fzs]. split; [exact Ez|]. split; [exact Lz|]. split; [|exact Bz].
    cbn [ld_list] in Pz. replace (repeat d n) with (firstn s (repeat d n) ++ hs ++ skipn (s + llen x) (repeat d n)); [exact Pz|].
    rewrite <- (firstn_skipn s (repeat d n)) at 3. f_equal. rewrite <- (firstn_skipn (llen x) (skipn s (repeat d n))). rewrite skipn_add. f_equal.
    rewrite skipn_repeat, firstn_repeat by lia. rewrite D3, Lnh. exact Er. }
  destruct (G (seq 0 (n - llen x + 1))) as (zs & Ez & Fz). { apply Forall_forall. intros s Hs. apply in_seq in Hs. lia. }
  exists zs. split; [|exact Fz]. rewrite Ez. cbn [bind]. unfold mppl_new.
  assert (Lz : Forall (fun z => llen z = n) zs). { clear - Fz. induction Fz as [|s z l zs (_ & H & _) F IH]; constructor; assumption. }
  assert (Fb : forallb (fun x0 => Nat.eqb (llen x0) (match zs with y :: _ => llen y | [] => 0 end)) zs = true).
  { apply forallb_forall. intros z Hz. rewrite Forall_forall in Lz. rewrite (Lz z Hz). destruct zs as [|y zs]; [contradiction|]. rewrite (Lz y) by (left; reflexivity). apply Nat.eqb_refl. }
  rewrite Fb. cbn [passert]. clear - Fz. induction Fz as [|s z l zs (_ & _ & Pz & _) F IH]; [reflexivity|]. cbn [mapM].
  rewrite (povm_checks_ok z (repeat 1 s ++ ns ++ repeat 1 (n - (s + llen x))) (repeat d n)); [|apply Pz..]. cbn [bind]. rewrite IH. reflexivity.
Qed.
Theorem block_error (x : ltens K) ns hs n : povm_ok x ns hs -> ~ (exists d, Forall (fun e => e = d) hs) -> block x n = Err AssertionError.
Proof.
  intros Hp Hd. destruct (povm_dims _ _ _ Hp) as (D1 & D2 & D3). pose proof (povm_len _ _ _ Hp) as Hlen. unfold block.
  rewrite D2, (pyget0 hs 0) by (destruct hs; [cbn in Hlen; lia|discriminate]). cbn [bind]. destruct (forallb (fun e => Nat.eqb e (hd 0 hs)) hs) eqn:E; cbn [passert]; [|reflexivity].
  exfalso. apply Hd. exists (hd 0 hs). apply Forall_forall. intros e He. rewrite forallb_forall in E. apply Nat.eqb_eq. auto.
Qed.

(** ** [repeat] *)
(** A list repeated up to length [n] *)
Definition cyc {A : Type} (n : nat) (l : list A) : list A := concat (repeat l (n / length l)) ++ firstn (n mod length l) l.
Lemma cyc_length {A : Type} n (l : list A) : l <> [] -> length (cyc n l) = n.
Proof.
  intros H. assert (0 < length l) by (destruct l; [congruence|cbn; lia]). unfold cyc. rewrite app_length, firstn_length.
  assert (E : forall q, length (concat (repeat l q)) = q * length l) by (induction q as [|q IH]; cbn; [reflexivity|]; rewrite app_length, IH; reflexivity).
  rewrite E. pose proof (Nat.mod_upper_bound n (length l)). pose proof (Nat.div_mod n (length l)). nia.
Qed.
(** Cutting where the bond dimension is one gives the two factors. *)
Lemma povm_cut (x : ltens K) ns hs m : povm_ok x ns hs -> 0 < m < llen x -> nth (m - 1) (ranks x) 0 = 1 ->
  let y := mkLt (firstn m (lts x)) 0 (Z.of_nat m) in let y' := mkLt (skipn m (lts x)) 0 (Z.of_nat (llen x - m)) in
  mppovm_new (firstn m (lts x)) = Ok y /\ povm_ok y (firstn m ns) (firstn m hs) /\ povm_ok y' (skipn m ns) (skipn m hs) /\
  forall k1 k2 i1 i2 j1 j2, inr k1 (firstn m ns) -> inr k2 (skipn m ns) -> inr i1 (firstn m hs) -> inr i2 (skipn m hs) -> inr j1 (firstn m hs) -> inr j2 (skipn m hs) ->
    entry x (triples (k1 ++ k2) (i1 ++ i2) (j1 ++ j2)) = (entry y (triples k1 i1 j1) * entry y' (triples k2 i2 j2))%K.
Proof.
  intros Hp Hm Hr y y'. destruct (povm_dims _ _ _ Hp) as (D1 & D2 & D3). destruct Hp as (Pp & Cp & Lnh & Sp & F255).
  assert (B : bonds (firstn m (lts x)) 1 1 /\ bonds (skipn m (lts x)) 1 1).
  { destruct Pp as [[Hn Hb] _]. pose proof Hb as Hb'. rewrite <- (firstn_skipn m (lts x)) in Hb'. apply bonds_app in Hb'. destruct Hb' as (c & B1 & B2).
    pose proof (bonds_skipn _ _ _ m Hb ltac:(unfold llen in Hm; lia)) as B3. replace m with (S (m - 1)) in B3 at 2 by lia. rewrite <- (ranks_nth x (m - 1)) in B3 by lia. rewrite Hr in B3.
    assert (c = 1). { destruct (skipn m (lts x)) as [|t ts] eqn:E; [apply (f_equal (@length _)) in E; rewrite skipn_length in E; unfold llen in Hm; cbn in E; lia|]. destruct B2 as (_ & <- & _). destruct B3 as (_ & B3 & _). exact B3. }
    subst c. split; assumption. }
  destruct B as [B1 B2].
  assert (N1 : firstn m (lts x) <> []). { intros E. apply (f_equal (@length _)) in E. rewrite firstn_length in E. unfold llen in Hm. cbn in E. lia. }
  assert (N2 : skipn m (lts x) <> []). { intros E. apply (f_equal (@length _)) in E. rewrite skipn_length in E. unfold llen in Hm. cbn in E. lia. }
  assert (L1 : length (firstn m (lts x)) = m) by (rewrite firstn_length; unfold llen in Hm; lia).
  assert (Sp' : mshape x = tshape (firstn m ns) (firstn m hs) ++ tshape (skipn m ns) (skipn m hs)).
  { rewrite Sp. rewrite <- (firstn_skipn m ns) at 1. rewrite <- (firstn_skipn m hs) at 1. apply tshape_app. rewrite !firstn_length. lia. }
  assert (S12 : map pdims (firstn m (lts x)) = tshape (firstn m ns) (firstn m hs) /\ map pdims (skipn m (lts x)) = tshape (skipn m ns) (skipn m hs)).
  { unfold mshape in Sp'. rewrite <- (firstn_skipn m (lts x)) in Sp' at 1. rewrite map_app in Sp'. apply app_inj_len in Sp'; [exact Sp'|]. rewrite map_length, L1, tshape_length by (rewrite !firstn_length; lia). rewrite firstn_length. lia. }
  destruct S12 as [S1 S2].
  assert (Q : Forall (fun t => 0 < size (shp t)) (firstn m (lts x)) /\ Forall (fun t => 0 < size (shp t)) (skipn m (lts x))).
  { destruct Pp as [_ Pp]. rewrite <- (firstn_skipn m (lts x)) in Pp. apply Forall_app in Pp. exact Pp. }
  destruct Q as [Q1 Q2].
  assert (G1 : Forall (fun n => n <= 255) (firstn m ns)) by (apply Forall_firstn'; exact F255). assert (G2 : Forall (fun n => n <= 255) (skipn m ns)) by (apply Forall_skipn'; exact F255).
  assert (O1 : povm_ok y (firstn m ns) (firstn m hs)).
  { split; [split; [split|]; assumption|]. split; [|split; [rewrite !firstn_length; lia|split; assumption]]. unfold cform_ok, cf_ok, llen. cbn [y lts lcan rcan]. rewrite L1. lia. }
  assert (O2 : povm_ok y' (skipn m ns) (skipn m hs)).
  { split; [split; [split|]; assumption|]. split; [|split; [rewrite !skipn_length; lia|split; assumption]]. assert (Ly : llen y' = llen x - m) by (unfold llen; cbn [y' lts]; apply skipn_length). unfold cform_ok, cf_ok. rewrite Ly. cbn [y' lcan rcan]. lia. }
  split. { rewrite (mppovm_new_chain _ 1 1 (firstn m ns) (firstn m hs)); auto; [rewrite L1; reflexivity|rewrite !firstn_length; lia]. }
  split; [exact O1|]. split; [exact O2|]. intros k1 k2 i1 i2 j1 j2 Hk1 Hk2 Hi1 Hi2 Hj1 Hj2.
  assert (V1 : Forall2 inr (triples k1 i1 j1) (tshape (firstn m ns) (firstn m hs))) by (apply triples_valid; auto; rewrite !firstn_length; lia).
  assert (V2 : Forall2 inr (triples k2 i2 j2) (tshape (skipn m ns) (skipn m hs))) by (apply triples_valid; auto; rewrite !skipn_length; lia).
  pose proof (inr_length _ _ Hk1). pose proof (inr_length _ _ Hi1). pose proof (inr_length _ _ Hj1). rewrite firstn_length in *.
  rewrite triples_app by lia. rewrite entry_amp; [|apply Pp|unfold valid_idx; rewrite Sp'; apply Forall2_app; assumption].
  rewrite entry_amp; [|apply O1|unfold valid_idx; destruct O1 as (_ & _ & _ & -> & _); exact V1]. rewrite entry_amp; [|apply O2|unfold valid_idx; destruct O2 as (_ & _ & _ & -> & _); exact V2].
  rewrite <- (firstn_skipn m (lts x)) at 1. rewrite (amp_app _ _ _ _ 0 0 1 1); [|apply Forall2_len in V1; rewrite V1, tshape_length by (rewrite !firstn_length; lia); rewrite !firstn_length; unfold llen in *; lia|exact B1|lia].
  rewrite bigsum_1. reflexivity.
Qed.
Definition last_blk (x : ltens K) (n : nat) : ltens K := mkLt (firstn (n mod llen x) (lts x)) 0 (Z.of_nat (n mod llen x)).
Theorem prepeat_spec (x : ltens K) ns hs n : povm_ok x ns hs -> 0 < n -> (n mod llen x = 0 \/ nth (n mod llen x - 1) (ranks x) 0 = 1) ->
  exists z, prepeat x n = Ok z /\ llen z = n /\ povm_ok z (cyc n ns) (cyc n hs) /\
    (n mod llen x = 0 -> forall bs, Forall2 blk_ok bs (repeat (ns, hs) (n / llen x)) ->
       entry z (triples (bks bs) (bis bs) (bjs bs)) = kprod (map (fun b => entry x (btri b)) bs)) /\
    (0 < n mod llen x -> forall bs b, Forall2 blk_ok bs (repeat (ns, hs) (n / llen x)) -> blk_ok b (firstn (n mod llen x) ns, firstn (n mod llen x) hs) ->
       entry z (triples (bks (bs ++ [b])) (bis (bs ++ [b])) (bjs (bs ++ [b]))) = (kprod (map (fun b => entry x (btri b)) bs) * entry (last_blk x n) (btri b))%K).
Proof.
  intros Hp Hn Hr. destruct (povm_dims _ _ _ Hp) as (D1 & D2 & D3). pose proof (povm_len _ _ _ Hp) as Hlen. assert (Lnh : length ns = length hs) by apply Hp.
  assert (W : 0 < llen x) by lia. set (m := n mod llen x) in *. set (q := n / llen x).
  assert (Hm : m < llen x) by (apply Nat.mod_upper_bound; lia). assert (Enq : n = llen x * q + m) by (apply Nat.div_mod; lia).
  assert (Frep : forall q, Forall2 (fun x p => povm_ok x (fst p) (snd p)) (repeat x q) (repeat (ns, hs) q)) by (induction q0; cbn [repeat]; [constructor|apply Forall2_cons; [exact Hp|assumption]]).
  assert (Rep : forall q bs, length bs = q -> zip2 (fun x b => entry x (btri b)) (repeat x q) bs = map (fun b => entry x (btri b)) bs).
  { induction q0; intros [|b bs] L; try discriminate; [reflexivity|]. cbn. f_equal. apply IHq0. cbn in L; lia. }
  assert (FM1 : forall q, flat_map fst (repeat (ns, hs) q) = concat (repeat ns q)) by (induction q0; cbn; [reflexivity|f_equal; assumption]).
  assert (FM2 : forall q, flat_map snd (repeat (ns, hs) q) = concat (repeat hs q)) by (induction q0; cbn; [reflexivity|f_equal; assumption]).
  unfold prepeat. rewrite (proj2 (Nat.eqb_neq _ _)) by lia. fold m q. unfold cyc. rewrite <- Lnh, <- D3. fold m q.
  destruct (Nat.ltb_spec 0 m) as [H0|H0].
  - destruct Hr as [Hr|Hr]; [lia|]. destruct (povm_cut x ns hs m Hp) as (Ey & Oy & _ & _); [lia|exact Hr|].
    replace (Z.of_nat m - 1)%Z with (Z.of_nat (m - 1)) by lia. rewrite (pyget_in _ (ranks x) (m - 1) 0) by (unfold ranks, llen in *; rewrite map_length; destruct (lts x); cbn in *; lia).
    cbn [bind]. rewrite Hr, Nat.eqb_refl. cbn [passert]. rewrite Ey. cbn [bind].
    destruct (povm_chain (repeat x q ++ [last_blk x n]) (repeat (ns, hs) q ++ [(firstn m ns, firstn m hs)])) as (z & Ez & Cz & Pz & _ & Lz & Az).
    + destruct q; discriminate.
    + apply Forall2_app; [apply Frep|]. apply Forall2_cons; [exact Oy|constructor].
    + unfold last_blk in Ez. fold m in Ez. rewrite Ez. cbn [bind]. exists z. split; [exact Cz|]. rewrite !flat_map_app, FM1, FM2 in Pz. cbn [flat_map fst snd] in Pz. rewrite !app_nil_r in Pz.
      split. { destruct (povm_dims _ _ _ Pz) as (_ & _ & E3). rewrite E3. pose proof (cyc_length n ns) as Q. unfold cyc in Q. rewrite <- D3 in Q. fold m q in Q. apply Q. destruct ns; [cbn in D3; lia|discriminate]. }
      split; [exact Pz|]. split; [lia|]. intros _ bs b Hb Hb1. rewrite Az by (apply Forall2_app; [exact Hb|constructor; [exact Hb1|constructor]]).
      pose proof Hb as Lb; apply Forall2_len in Lb. rewrite repeat_length in Lb. rewrite zip2_app by (rewrite repeat_length; lia). rewrite kprod_app, Rep by exact Lb. cbn [zip2]. rewrite kprod_cons. change (kprod (@nil K)) with (@k1 K). ring.
  - assert (E0 : m = 0) by lia. cbn [bind]. rewrite app_nil_r. assert (Hq : 0 < q) by (destruct q; [lia|lia]).
    destruct (povm_chain (repeat x q) (repeat (ns, hs) q)) as (z & Ez & Cz & Pz & _ & Lz & Az).
    + destruct q; [lia|discriminate].
    + apply Frep.
    + rewrite Ez. cbn [bind]. exists z. split; [exact Cz|]. rewrite FM1, FM2 in Pz. rewrite E0, !firstn_O, !app_nil_r.
      split. { destruct (povm_dims _ _ _ Pz) as (_ & _ & E3). rewrite E3. pose proof (cyc_length n ns) as Q. unfold cyc in Q. rewrite <- D3 in Q. fold m q in Q. rewrite E0, firstn_O, app_nil_r in Q. apply Q. destruct ns; [cbn in D3; lia|discriminate]. }
      split; [exact Pz|]. split; [|lia]. intros _ bs Hb. rewrite Az by exact Hb. pose proof Hb as Lb; apply Forall2_len in Lb. rewrite repeat_length in Lb. rewrite Rep by exact Lb. reflexivity.
Qed.
Theorem repeat_error (x : ltens K) ns hs n : povm_ok x ns hs -> 0 < n mod llen x -> nth (n mod llen x - 1) (ranks x) 0 <> 1 -> prepeat x n = Err AssertionError.
Proof.
  intros Hp H0 Hr. destruct (povm_dims _ _ _ Hp) as (D1 & D2 & D3). pose proof (povm_len _ _ _ Hp) as Hlen. assert (Lnh : length ns = length hs) by apply Hp. assert (Hm : n mod llen x < llen x) by (apply Nat.mod_upper_bound; lia).
  unfold prepeat. rewrite (proj2 (Nat.eqb_neq (llen x) 0)) by lia. rewrite (proj2 (Nat.ltb_lt _ _) H0).
  replace (Z.of_nat (n mod llen x) - 1)%Z with (Z.of_nat (n mod llen x - 1)) by lia. rewrite (pyget_in _ (ranks x) (n mod llen x - 1) 0).
  - cbn [bind]. rewrite (proj2 (Nat.eqb_neq _ _) Hr). reflexivity.
  - unfold ranks. rewrite map_length. unfold llen in *. destruct (lts x); cbn in *; lia.
Qed.
End Embed.
