(** [MPPovm._fill_outcome_mpa_holes] and [_elemsum_identity] (mppovm.py 1022-1089). *)
From Coq Require Import Reals Lra.
From Verif Require Export PfRandom PfInject PfFromArray PfMatch.
Open Scope nat_scope.

(** ** Sites with several outcomes *)
Fixpoint sup (a : nat) (ns : list nat) : list nat :=
  match ns with [] => [] | n :: ns' => if Nat.ltb 1 n then a :: sup (S a) ns' else sup (S a) ns' end.
Definition bigv {A : Type} (ns : list nat) (vs : list A) : list A := map snd (filter (fun p => Nat.ltb 1 (fst p)) (combine ns vs)).
Lemma sup_eq ns : forall a, map fst (filter (fun p => Nat.ltb 1 (snd p)) (combine (seq a (length ns)) ns)) = sup a ns.
Proof. induction ns as [|n ns IH]; intros a; [reflexivity|]. cbn [length seq combine filter sup snd]. destruct (1 <? n); cbn [map fst]; rewrite IH; reflexivity. Qed.
Lemma sup_len ns : forall a, length (sup a ns) = length (bigd ns).
Proof. induction ns as [|n ns IH]; intros a; [reflexivity|]. unfold bigd. cbn [sup filter]. fold (bigd ns). destruct (1 <? n); cbn [length]; rewrite IH; reflexivity. Qed.
Lemma bigv_cons {A : Type} n ns (v : A) vs : bigv (n :: ns) (v :: vs) = if Nat.ltb 1 n then v :: bigv ns vs else bigv ns vs.
Proof. unfold bigv. cbn [combine filter fst]. destruct (1 <? n); reflexivity. Qed.
Lemma bigv_singles ns : forall ks, bigv ns (singles ks) = singles (bigi ns ks).
Proof. induction ns as [|n ns IH]; intros [|k ks]; try reflexivity. change (singles (k :: ks)) with ([k] :: singles ks). rewrite bigv_cons, IH. unfold bigi. cbn [combine filter fst]. destruct (1 <? n); reflexivity. Qed.
Lemma bigi_self ns : bigi ns ns = bigd ns.
Proof. induction ns as [|n ns IH]; [reflexivity|]. unfold bigi, bigd in *. cbn [combine filter fst]. destruct (1 <? n); cbn [map snd]; rewrite IH; reflexivity. Qed.
Lemma bigd_full ns : length (bigd ns) = length ns -> bigd ns = ns /\ forall ks, length ks = length ns -> bigi ns ks = ks.
Proof.
  induction ns as [|n ns IH]; intros L; [split; [reflexivity|intros [|]; [reflexivity|discriminate]]|]. unfold bigd in L. cbn [filter] in L. fold (bigd ns) in L.
  assert (Le : length (bigd ns) <= length ns) by (unfold bigd; clear; induction ns as [|m ns IH]; cbn [filter length]; [lia|destruct (1 <? m); cbn [length]; lia]). destruct (1 <? n) eqn:E; cbn [length] in L; [|lia]. destruct (IH ltac:(lia)) as [I1 I2].
  unfold bigd. cbn [filter]. rewrite E. fold (bigd ns). rewrite I1. split; [reflexivity|]. intros [|k ks] Lk; [discriminate|]. unfold bigi. cbn [combine filter fst]. rewrite E. cbn [map snd]. fold (bigi ns ks). rewrite I2 by auto. reflexivity.
Qed.
(** The runs of sites with one outcome *)
Fixpoint hl (p : nat) (run ns : list nat) : list (nat * list nat) :=
  match ns with
  | [] => [(p, run)]
  | n :: ns' => if Nat.ltb 1 n then (p, run) :: hl (S p) [] ns' else hl p (run ++ [n]) ns'
  end.
Lemma hl_fst ns : forall p run, map fst (hl p run ns) = seq p (S (length (bigd ns))).
Proof.
  induction ns as [|n ns IH]; intros p run; [reflexivity|]. unfold bigd. cbn [hl filter]. fold (bigd ns). destruct (1 <? n); [|apply IH]. cbn [map fst length]. rewrite IH. reflexivity.
Qed.
Lemma holes_hl D ns : forall pre mid p, D = pre ++ mid ++ ns ->
  map (fun q : nat * (nat * nat) => let '(pos, (l, r)) := q in (pos, firstn (r - l) (skipn l D)))
    (combine (seq p (S (length (sup (length pre + length mid) ns))))
       (combine (length pre :: map S (sup (length pre + length mid) ns)) (sup (length pre + length mid) ns ++ [length D]))) = hl p mid ns.
Proof.
  assert (Sk : forall pre mid t, skipn (length pre) (pre ++ mid ++ t) = mid ++ t :> list nat) by (intros pre mid t; rewrite skipn_app, skipn_all, Nat.sub_diag; reflexivity).
  induction ns as [|n ns IH]; intros pre mid p E.
  - cbn [sup length seq map app combine hl]. rewrite E. rewrite Sk, app_nil_r. rewrite !app_length. rewrite firstn_all2 by lia. reflexivity.
  - cbn [sup hl]. destruct (1 <? n).
    + cbn [length seq map app combine]. f_equal.
      * rewrite E, Sk. f_equal. replace (length pre + length mid - length pre) with (length mid + 0) by lia. rewrite firstn_app_2. cbn. apply app_nil_r.
      * specialize (IH (pre ++ mid ++ [n]) [] (S p)). rewrite !app_length in IH. cbn [length] in IH. replace (length pre + (length mid + 1) + 0) with (S (length pre + length mid)) in IH by lia.
        replace (length pre + (length mid + 1)) with (S (length pre + length mid)) in IH by lia. apply IH. rewrite E, <- !app_assoc. reflexivity.
    + specialize (IH pre (mid ++ [n]) p). rewrite app_length in IH. cbn [length] in IH. replace (length pre + (length mid + 1)) with (S (length pre + length mid)) in IH by lia. apply IH. rewrite E, <- app_assoc. reflexivity.
Qed.
(** ** Positions and insertions *)
Lemma increasing_filter {A : Type} (P : nat * A -> bool) l : forall a b n m, map fst l = seq b n -> a < b -> b + n <= S m -> increasing a (map fst (filter P l)) m.
Proof.
  induction l as [|[c v] l IH]; intros a b n m E Ha Hm; [cbn; lia|]. destruct n as [|n]; [discriminate|]. cbn [map fst seq] in E. injection E as -> E. cbn [filter]. destruct (P (b, v)).
  - cbn [map fst increasing]. split; [exact Ha|]. apply (IH b (S b) n m E); lia.
  - apply (IH a (S b) n m E); lia.
Qed.
Lemma positions_filter {A : Type} (P : nat * A -> bool) l : forall b n m, map fst l = seq b n -> b + n <= S m -> positions (map fst (filter P l)) m.
Proof.
  induction l as [|[c v] l IH]; intros b n m E Hm; [exact I|]. destruct n as [|n]; [discriminate|]. cbn [map fst seq] in E. injection E as -> E. cbn [filter]. destruct (P (b, v)).
  - cbn [map fst positions]. apply (increasing_filter P l b (S b) n m E); lia.
  - apply (IH (S b) n m E); lia.
Qed.
Lemma interleave_skip {A : Type} (ps : list nat) (L : list A) ts a b : a <= b -> (forall c, In c ps -> b <= c) ->
  interleave (cuts a ps L) ts = firstn (b - a) L ++ interleave (cuts b ps (skipn (b - a) L)) ts.
Proof.
  intros Hab Hc. destruct ps as [|c ps]; cbn [cuts].
  - destruct ts as [|t ts]; cbn [interleave]; [rewrite firstn_skipn; reflexivity|]. rewrite <- (firstn_skipn (b - a) L) at 1. rewrite <- app_assoc. reflexivity.
  - assert (Hbc : b <= c) by (apply Hc; left; reflexivity).
    assert (E1 : firstn (c - a) L = firstn (b - a) L ++ firstn (c - b) (skipn (b - a) L)).
    { replace (c - a) with ((b - a) + (c - b)) by lia. generalize (b - a) (c - b). clear. intros m k. revert L. induction m as [|m IH]; intros [|y L]; cbn; [reflexivity|reflexivity|destruct k; reflexivity|]. f_equal. apply IH. }
    assert (E2 : skipn (c - a) L = skipn (c - b) (skipn (b - a) L)).
    { replace (c - a) with ((b - a) + (c - b)) by lia. generalize (b - a) (c - b). clear. intros m k. revert L. induction m as [|m IH]; intros [|y L]; cbn; [reflexivity|reflexivity|destruct k; reflexivity|]. apply IH. }
    destruct ts as [|t ts]; cbn [interleave]; rewrite E1; [reflexivity|]. rewrite E2, <- app_assoc. reflexivity.
Qed.
Lemma filter_fst_ge {A : Type} (P : nat * A -> bool) l b n c : map fst l = seq b n -> In c (map fst (filter P l)) -> b <= c.
Proof. intros E H. apply in_map_iff in H. destruct H as (q & <- & Hq). apply filter_In in Hq. destruct Hq as [Hq _]. apply (in_map fst) in Hq. rewrite E in Hq. apply in_seq in Hq. lia. Qed.
Lemma interleave_filter {A B : Type} (P : nat * B -> bool) (T : nat * B -> list A) l : (forall h, P h = false -> T h = []) -> forall a b n L, map fst l = seq b n -> a <= b ->
  interleave (cuts a (map fst (filter P l)) L) (map T (filter P l)) = interleave (cuts a (map fst l) L) (map T l).
Proof.
  intros HT. induction l as [|[c v] l IH]; intros a b n L E Ha; [reflexivity|]. destruct n as [|n]; [discriminate|]. cbn [map fst seq] in E. injection E as -> E. cbn [filter map fst cuts interleave]. destruct (P (b, v)) eqn:Ep.
  - cbn [map fst cuts interleave]. rewrite (IH b (S b) n _ E) by lia. reflexivity.
  - rewrite HT by exact Ep. cbn [app]. rewrite (interleave_skip _ L _ a b Ha).
    + f_equal. apply (IH b (S b) n _ E). lia.
    + intros c Hc. pose proof (filter_fst_ge P l (S b) n c E Hc). lia.
Qed.
Lemma interleave_hl {A : Type} (h : nat -> A) ns : forall p run vs, Forall2 (fun n v => Nat.ltb 1 n = false -> v = h n) ns vs ->
  interleave (cuts p (map fst (hl p run ns)) (bigv ns vs)) (map (fun q => map h (snd q)) (hl p run ns)) = map h run ++ vs.
Proof.
  induction ns as [|n ns IH]; intros p run vs H; inversion H as [|? v ? vs' Hv H']; subst.
  - cbn [hl map fst snd cuts interleave]. rewrite Nat.sub_diag. cbn. reflexivity.
  - rewrite bigv_cons. cbn [hl]. destruct (1 <? n) eqn:E.
    + cbn [map fst snd cuts]. rewrite Nat.sub_diag. cbn [firstn skipn interleave app]. f_equal. rewrite (interleave_skip _ _ _ p (S p)) by (try lia; intros c Hc; rewrite hl_fst in Hc; apply in_seq in Hc; lia).
      replace (S p - p) with 1 by lia. cbn [firstn skipn app]. f_equal. rewrite IH by exact H'. reflexivity.
    + rewrite IH by exact H'. rewrite map_app, <- app_assoc. cbn [map app]. rewrite Hv by reflexivity. reflexivity.
Qed.

Lemma Forall2_cons_iff {A B : Type} (R : A -> B -> Prop) a l b m : Forall2 R (a :: l) (b :: m) <-> R a b /\ Forall2 R l m.
Proof. split; [intros H; inversion H; auto|intros [H1 H2]; constructor; assumption]. Qed.

Section Gen.
Context {K : StarRing}.
Add Ring Kr : (k_ring K).
(** A chain with a nonzero entry has no empty bond. *)
Lemma amp_zero_or_pos (ts : list (nd K)) : forall l r, bonds ts l r -> 0 < l -> Forall (fun t => 0 < ldim t /\ 0 < rdim t) ts \/ forall is a b, length is = length ts -> amp ts is a b = k0.
Proof.
  induction ts as [|t ts IH]; intros l r B Hl; [left; constructor|]. destruct B as (Ot & El & B). destruct (rdim t) as [|q] eqn:Er.
  - right. intros [|i is] a b L; [discriminate|]. cbn [amp]. rewrite Er. reflexivity.
  - rewrite <- Er in B. destruct (IH _ _ B ltac:(lia)) as [I1|I2]; [left; constructor; [lia|exact I1]|right]. intros [|i is] a b L; [discriminate|]. cbn [amp]. apply bigsum_zero. intros c _. rewrite I2 by auto. ring.
Qed.
Lemma nonzero_bonds (x : ltens K) is : mpa_ok x -> valid_idx is (mshape x) -> entry x is <> k0 -> bonds_pos x.
Proof.
  intros Hx Hi H. rewrite entry_amp in H by assumption. destruct Hx as [_ B]. destruct (amp_zero_or_pos _ 1 1 B ltac:(lia)) as [P|Z]; [exact P|]. exfalso. apply H. apply Z. rewrite (Forall2_len _ _ _ _ _ Hi). apply mshape_length.
Qed.
Lemma combine_all ns : forall ks g, forallb (fun p => Nat.eqb (nth 0 (snd p) 0) (nth (fst p) (ks ++ ns) 0)) (combine (sup (length ks) ns) (singles (bigd ns) ++ g)) = true.
Proof.
  induction ns as [|n ns IH]; intros ks g; [reflexivity|]. unfold bigd. cbn [sup filter]. fold (bigd ns). replace (ks ++ n :: ns) with ((ks ++ [n]) ++ ns) by (rewrite <- app_assoc; reflexivity).
  specialize (IH (ks ++ [n]) g). rewrite app_length in IH. cbn [length] in IH. rewrite Nat.add_1_r in IH. destruct (1 <? n); [|exact IH].
  change (singles (n :: bigd ns) ++ g) with ([n] :: singles (bigd ns) ++ g). cbn [combine forallb fst snd nth]. rewrite IH, andb_true_r. rewrite <- app_assoc, app_nth2, Nat.sub_diag by lia. apply Nat.eqb_refl.
Qed.
Theorem fill_holes_spec (x g : ltens K) ns hs : povm_ok x ns hs -> mpa_ok g -> mshape g = singles (bigd ns) ->
  exists z, fill_holes x (nsoutpos x) g = Ok z /\ mpa_ok z /\ mshape z = singles ns /\ forall ks, inr ks ns -> entry z (singles ks) = entry g (singles (bigi ns ks)).
Proof.
  intros Hx Hg Sg. destruct (povm_dims _ _ _ Hx) as (D1 & D2 & D3). destruct (povm_pos _ _ _ Hx) as [Pn _]. pose proof Hx as (_ & _ & Lh & _).
  assert (Lx : llen x = length ns) by (rewrite D3; lia). assert (Lg : llen g = length (bigd ns)) by (rewrite <- mshape_length, Sg; apply singles_len).
  assert (Es : nsoutpos x = sup 0 ns) by (unfold nsoutpos; rewrite D1, Lx; apply sup_eq).
  unfold fill_holes. rewrite Es, sup_len, Lg, Nat.eqb_refl, D1. cbn [passert]. pose proof (combine_all ns [] []) as C. rewrite app_nil_r in C. cbn [length app] in C. rewrite Sg, C. cbn [passert]. rewrite Lx.
  destruct (Nat.eqb_spec (length (bigd ns)) (length ns)) as [E|E].
  - destruct (bigd_full ns E) as [B1 B2]. exists g. split; [reflexivity|]. split; [exact Hg|]. split; [rewrite Sg, B1; reflexivity|]. intros ks Hk. rewrite B2 by (apply inr_length; exact Hk). reflexivity.
  - set (H := holes x (sup 0 ns)).
    assert (EH : H = filter (fun h => Nat.ltb 0 (length (snd h))) (hl 0 [] ns)).
    { unfold H, holes. rewrite D1, Lx. f_equal. exact (holes_hl ns ns [] [] 0 eq_refl). }
    pose proof (hl_fst ns 0 []) as HF.
    assert (IH : forall (A : Type) (h : nat -> A) vs, Forall2 (fun n v => Nat.ltb 1 n = false -> v = h n) ns vs ->
      interleave (cuts 0 (map fst H) (bigv ns vs)) (map (fun q => map h (snd q)) H) = vs).
    { intros A h vs Hv. rewrite EH, (interleave_filter _ _ (hl 0 [] ns)) with (b := 0) (n := S (length (bigd ns))); [|intros [q []] Hq; [reflexivity|discriminate]|exact HF|lia]. apply (interleave_hl h ns 0 [] vs Hv). }
    assert (Hne : H <> []).
    { intros Z. pose proof (IH nat (fun d => d) ns ltac:(clear; induction ns; constructor; auto)) as I. rewrite Z in I. cbn [map cuts interleave] in I.
      assert (Eb : bigv ns ns = bigd ns) by (exact (bigi_self ns)). rewrite Eb in I. apply E. rewrite I. reflexivity. }
    set (tens := map (fun q => map (fun d => ones_nd (K:=K) [d]) (snd q)) H).
    destruct (inject_spec g (map fst H) (map (fun q => InjMany (map (fun d => Some (ones_nd (K:=K) [d])) (snd q))) H) tens Hg) as (z & Ez & Hz & Sz & C1 & C2 & Az).
    + rewrite EH. apply (positions_filter _ _ 0 (S (length (bigd ns)))); [exact HF|lia].
    + unfold tens. clear. induction H as [|q H IH]; cbn [map]; constructor; [|exact IH]. unfold injected. cbn [inject_list]. induction (snd q) as [|d ds IHd]; cbn [map]; constructor; [split; [reflexivity|apply wf_tab]|exact IHd].
    + exists z. rewrite map_map in Ez. split; [destruct H; [congruence|exact Ez]|]. split; [exact Hz|].
      assert (Et : map (map shp) tens = map (fun q => map (fun d => [d]) (snd q)) H) by (unfold tens; rewrite map_map; apply map_ext; intros q; rewrite map_map; reflexivity).
      split.
      * rewrite Sz, Sg, Et. rewrite <- (bigi_self ns), <- bigv_singles. apply (IH _ (fun d => [d])). clear. induction ns as [|n ns IH]; cbn [singles map]; constructor; [intros; reflexivity|exact IH].
      * intros ks Hk.
        assert (Ei : interleave (cuts 0 (map fst H) (singles (bigi ns ks))) (map (fun q => map (fun _ => [0]) (snd q)) H) = singles ks).
        { rewrite <- bigv_singles. apply (IH _ (fun _ => [0])). clear - Hk. revert ks Hk. induction ns as [|n ns IH]; intros ks Hk; [inversion Hk; constructor|]. apply inr_cons_inv in Hk. destruct Hk as (k & ks' & -> & Hk & Hks).
          cbn [singles map]. constructor; [intros L; apply Nat.ltb_ge in L; f_equal; lia|apply IH; exact Hks]. }
        assert (Vj : Forall2 (Forall2 inr) (map (fun q => map (fun _ : nat => [0]) (snd q)) H) (map (map shp) tens)).
        { rewrite Et. assert (PH : Forall (fun q => Forall (fun d => 0 < d) (snd q)) H).
          { rewrite EH. apply Forall_forall. intros q Hq. apply filter_In in Hq. destruct Hq as [Hq _]. clear - Pn Hq. assert (G : forall p run, Forall (fun d => 0 < d) run -> forall q, In q (hl p run ns) -> Forall (fun d => 0 < d) (snd q)).
            { clear q Hq. induction Pn as [|n ns Hn P IH]; intros p run Hr q' Hq'; cbn [hl] in Hq'; [destruct Hq' as [<-|[]]; exact Hr|]. destruct (1 <? n).
              - destruct Hq' as [<-|Hq']; [exact Hr|]. apply (IH (S p) []); [constructor|exact Hq'].
              - apply (IH p (run ++ [n])); [apply Forall_app; split; [exact Hr|constructor; [exact Hn|constructor]]|exact Hq']. }
            apply (G 0 [] ltac:(constructor) q Hq). }
          clear - PH. induction PH as [|q H Hq PH IH]; cbn [map]; constructor; [|exact IH]. induction Hq; cbn [map]; constructor; [apply inr_single; assumption|assumption]. }
        assert (Vz : valid_idx (singles ks) (mshape z)).
        { assert (Sz' : mshape z = singles ns). { rewrite Sz, Sg, Et. rewrite <- (bigi_self ns), <- bigv_singles. apply (IH _ (fun d => [d])). clear. induction ns as [|n ns IH]; cbn [singles map]; constructor; [intros; reflexivity|exact IH]. }
          rewrite Sz'. apply singles_valid. exact Hk. }
        assert (Vg : valid_idx (singles (bigi ns ks)) (mshape g)) by (rewrite Sg; apply singles_valid; apply bigi_inr; exact Hk).
        rewrite !entry_amp by assumption. rewrite <- Ei. rewrite Az by assumption.
        assert (K1 : kprod (zip2 (fun ts js => kprod (zip2 get ts js)) tens (map (fun q => map (fun _ : nat => [0]) (snd q)) H)) = k1).
        { assert (PH : Forall2 (Forall2 inr) (map (fun q => map (fun _ : nat => [0]) (snd q)) H) (map (map shp) tens)) by exact Vj. unfold tens in *. clear - PH. induction H as [|q H IH]; [reflexivity|]. cbn [map zip2]. rewrite kprod_cons. cbn [map] in PH. apply Forall2_cons_iff in PH. destruct PH as [P1 P2]. rewrite IH by exact P2.
          assert (K2 : kprod (zip2 get (map (fun d => ones_nd (K:=K) [d]) (snd q)) (map (fun _ : nat => [0]) (snd q))) = k1).
          { clear - P1. rewrite map_map in P1. induction (snd q) as [|d ds IHd]; [reflexivity|]. cbn [map zip2] in *. apply Forall2_cons_iff in P1. destruct P1 as [Q1 Q2]. rewrite kprod_cons, IHd by exact Q2. unfold ones_nd. rewrite get_tab by exact Q1. ring. }
          rewrite K2. ring. }
        rewrite K1. ring.
Qed.
End Gen.

Add Ring Cr : (k_ring CS).
Lemma cs_one_zero : @k1 CS <> k0.
Proof. intros E. apply (f_equal Cre) in E. cbn in E. lra. Qed.
(** The sum of the selected elements, and the identity matrix *)
Definition given_sum (ns : list nat) (x : ltens CS) (given : list bool) : mat CS :=
  fun is js => msum ns (fun ks => (if nth (ravel ns ks) given false then k1 else k0) * elem_of x ks is js)%K.
Definition ident : mat CS := fun is js => if list_eq_dec Nat.eq_dec is js then k1 else k0.
Definition elemsum_val (hs : list nat) (S : mat CS) (any_missing : bool) (eps : R) : res (option R) :=
  let sn := sqrt (hsn2 hs S) in
  let en := sqrt (hsn2 hs ident) in
  let inner := sqrt (cabs2 (hsin hs S ident)) in
  passert (Rltb 0 (sn * en) && Rleb (- eps) ((sn * en - inner) / (sn * en))) (
  if Rltb eps ((sn * en - inner) / (sn * en)) then Ok None else
  passert (if any_missing then Rltb (sn / en) (1 + eps) else Rleb (Rabs (sn / en - 1)) eps) (Ok (Some (sn / en)%R))).

Section QR.
Variable qr : nd CS -> res (nd CS * nd CS).
Hypothesis Hqr : qr_sound qr.
Theorem elemsum_spec (x : ltens CS) ns hs given eps : povm_ok x ns hs -> bigd ns <> [] -> length given = size ns -> existsb (fun b => b) given = true ->
  (elemsum_identity qr x (nsoutpos x) (nsoutdims x, given) eps = Err LinAlgError /\ qr_fails qr) \/
  elemsum_identity qr x (nsoutpos x) (nsoutdims x, given) eps = elemsum_val hs (given_sum ns x given) (negb (forallb (fun b => b) given)) eps.
Proof.
  intros Hx Hb Lg Eg. destruct (povm_dims _ _ _ Hx) as (D1 & D2 & D3). destruct (povm_pos _ _ _ Hx) as [Pn Ph]. pose proof Hx as (Px & Cx & Lh & Sx & _). pose proof (PfMpPovm.povm_len _ _ _ Hx) as P0.
  unfold elemsum_identity. cbn [fst snd]. rewrite Eg. cbn [passert]. assert (En : nsoutdims x = bigd ns) by (unfold nsoutdims; rewrite D1; reflexivity). rewrite En.
  set (ga := mkNd (bigd ns) (map (fun b : bool => if b then k1 else k0) given) : nd CS).
  assert (Wa : ndwf ga) by (unfold ndwf; cbn [ga dat shp]; rewrite map_length, size_bigd by exact Pn; exact Lg).
  assert (Sp : 0 < size (shp ga)). { cbn [ga shp]. rewrite size_bigd by exact Pn. rewrite <- Lg. destruct given; [discriminate|cbn; lia]. }
  assert (Cs : shp ga = concat (singles (bigd ns))). { cbn [ga shp]. unfold singles. clear. induction (bigd ns) as [|d ds IH]; [reflexivity|]. cbn. f_equal. exact IH. }
  pose proof (from_array_int_spec qr Hqr ga 1 (singles (bigd ns)) Wa Sp Cs) as FA.
  destruct FA as [(g0 & E0 & Hg0 & Sg0 & Ag0 & _)|[E0 HF]].
  { intros Z. apply Hb. destruct (bigd ns); [reflexivity|discriminate]. }
  { left; lia. }
  { unfold singles. apply Forall_map. apply Forall_forall. reflexivity. }
  2:{ left. rewrite E0. split; [reflexivity|exact HF]. }
  rewrite E0. cbn [bind]. destruct (fill_holes_spec x g0 ns hs Hx Hg0 Sg0) as (g & Eg' & Hg & Sg & Ag). rewrite Eg'. cbn [bind].
  assert (Ag' : forall ks, inr ks ns -> entry g (singles ks) = if nth (ravel ns ks) given false then k1 else k0).
  { intros ks Hk. rewrite Ag by exact Hk. unfold entry. rewrite Ag0. assert (Ec : concat (singles (bigi ns ks)) = bigi ns ks) by (unfold singles; clear; induction (bigi ns ks) as [|d ds IH]; [reflexivity|]; cbn; f_equal; exact IH).
    rewrite Ec. unfold get, ga. cbn [shp dat]. rewrite ravel_bigi by assumption. pose proof (ravel_lt _ _ Hk) as Rk.
    exact (map_nth (fun b : bool => if b then k1 else k0) given false (ravel ns ks)). }
  assert (Bg : bonds_pos g).
  { apply existsb_exists in Eg. destruct Eg as (b & Hin & Hbt). apply (In_nth _ _ false) in Hin. destruct Hin as (i & Hi & Ei). rewrite Lg in Hi. pose proof (unravel_inr ns i Hi) as Hu.
    apply (nonzero_bonds g (singles (unravel ns i)) Hg); [unfold valid_idx; rewrite Sg; apply singles_valid; exact Hu|]. rewrite Ag' by exact Hu. rewrite ravel_unravel, Ei, Hbt by exact Hi. exact cs_one_zero. }
  destruct (mdot_by g x (AInt (-1) 0) tail_of head_of (map (fun _ => []) ns) (squares hs) (singles ns)) as (es & Ees & Hes & Ses & Res & Ces & Aes).
  { exact Hg. } { apply Px. }
  { rewrite Sg. clear. induction ns as [|n ns IH]; [reflexivity|]. cbn. f_equal. exact IH. }
  { rewrite Sx. apply tshape_head. exact Lh. }
  { cbn [user_axes fst]. apply forms2; [rewrite map_length, singles_len; reflexivity|]. intros a c _ Hc. apply in_singles in Hc. destruct Hc as (e & ->). apply form_last. }
  { cbn [user_axes snd]. apply forms2; [rewrite singles_len, squares_len; symmetry; exact Lh|]. intros a c _ Hc. apply in_singles in Hc. destruct Hc as (e & ->). apply form_first. }
  rewrite Ees. cbn [bind]. assert (Ses' : mshape es = squares hs). { rewrite Ses. clear - Lh. revert hs Lh. induction ns as [|n ns IH]; intros [|h hs] L; try discriminate; [reflexivity|]. cbn. f_equal. apply IH. auto. }
  assert (Aes' : forall is js, inr is hs -> inr js hs -> entry es (pairs is js) = given_sum ns x given is js).
  { intros is js Hi Hj. pose proof (inr_length _ _ Hi) as L1. pose proof (inr_length _ _ Hj) as L2.
    transitivity (entry es (zip2 (@app nat) (map (fun _ => []) ns) (pairs is js))).
    { f_equal. assert (L3 : length is = length ns) by lia. assert (L4 : length js = length ns) by lia. clear - L3 L4. revert is js L3 L4. induction ns as [|n ns IH]; intros [|i is] [|j js] L3 L4; try discriminate; [reflexivity|]. cbn. f_equal. apply IH; auto. }
    rewrite Aes; [|clear; induction ns; cbn [map]; constructor; [constructor|assumption]|apply squares_valid; assumption]. rewrite msums_singles. unfold given_sum. apply msum_ext. intros ks Hk. pose proof (inr_length _ _ Hk) as L3.
    unfold elem_of. rewrite (triples_head ks is js) by lia. rewrite <- Ag' by exact Hk. f_equal. f_equal. clear - L3. revert ks L3. induction ns as [|n ns IH]; intros [|k ks] L3; try discriminate; [reflexivity|]. cbn. f_equal. apply IH; auto. }
  assert (Lx : llen g = length hs) by (rewrite <- mshape_length, Sg, singles_len; lia).
  assert (Les : llen es = llen g) by (rewrite <- (mshape_length es), Ses', squares_len; lia).
  destruct (trivial_form es Hes) as (Fe & _ & Te); [rewrite Ces, Les; reflexivity|].
  assert (Pe : mpa_pos es).
  { apply mpa_pos_parts; [exact Hes| |].
    - apply pos_ranks. apply (dot_bonds_pos g x es Hes Res Bg). apply mpa_pos_bonds. exact Px.
    - rewrite Ses'. unfold squares. apply Forall_map. eapply Forall_impl; [|exact Ph]. cbn beta. intros h Hh. rewrite !size_cons, size_nil. nia. }
  destruct (eye_spec (K:=CS) (llen x) (EyeList (hdims x))) as (e & Ee & He & Se & Re & Ce & Ae); [lia|cbn [eye_dims]; rewrite D2; lia|]. cbn [eye_dims] in Se, Ae. rewrite D2 in Se, Ae, Ee. rewrite D2, Ee. cbn [bind].
  change (map (fun d => [d; d]) hs) with (squares hs) in Se.
  assert (Le : llen e = llen x) by (rewrite <- (mshape_length e), Se, squares_len; lia).
  destruct (trivial_form e He) as (Fi & _ & Ti); [rewrite Ce, Le; reflexivity|].
  assert (Pi : mpa_pos e).
  { apply mpa_pos_parts; [exact He|eapply Forall_impl; [|exact Re]; cbn; intros; lia|]. rewrite Se. unfold squares. apply Forall_map. eapply Forall_impl; [|exact Ph]. cbn beta. intros h Hh. rewrite !size_cons, size_nil. nia. }
  assert (N : forall (u v : ltens CS) (A B : mat CS), mshape u = squares hs -> (forall is js, inr is hs -> inr js hs -> entry u (pairs is js) = A is js) -> (forall is js, inr is hs -> inr js hs -> entry v (pairs is js) = B is js) ->
    msums (mshape u) (fun is => kconj (entry u is) * entry v is)%K = hsin hs A B).
  { intros u v A B Su Hu Hv. rewrite Su, msums_squares. unfold hsin. apply msum_ext. intros is Hi. apply msum_ext. intros js Hj. rewrite Hu, Hv by assumption. reflexivity. }
  destruct (norm_dense qr Hqr es Pe Fe Te) as [([v1 s1] & En1 & V1 & P1 & _ & _ & S1 & T1 & _)|[E1 HF]]; [|left; rewrite E1; split; [reflexivity|exact HF]]. rewrite En1. cbn [bind fst snd] in *.
  destruct (norm_dense qr Hqr e Pi Fi Ti) as [([v2 s2] & En2 & V2 & P2 & _ & _ & S2 & T2 & _)|[E1 HF]]; [|left; rewrite E1; split; [reflexivity|exact HF]]. rewrite En2. cbn [bind fst snd] in *.
  destruct (minner_spec s1 s2) as (ia & Ei & _ & _ & Gi); [apply P1|apply P2|apply mpa_pos_bonds; exact P1|apply mpa_pos_bonds; exact P2|rewrite S1, S2, Ses', Se; reflexivity|]. rewrite Ei. cbn [bind]. right.
  assert (X1 : forall is, entry s1 is = entry es is) by (intros is; unfold entry; rewrite T1; reflexivity). assert (X2 : forall is, entry s2 is = entry e is) by (intros is; unfold entry; rewrite T2; reflexivity).
  assert (Gi' : get ia [] = hsin hs (given_sum ns x given) ident).
  { rewrite Gi. rewrite <- (N s1 s2 (given_sum ns x given) ident).
    - apply msums_ext. intros is Hi. rewrite !entry_amp; [reflexivity|apply P2|unfold valid_idx; rewrite S2, Se, <- Ses', <- S1; exact Hi|apply P1|exact Hi].
    - rewrite S1. exact Ses'.
    - intros is js Hi Hj. rewrite X1. apply Aes'; assumption.
    - intros is js Hi Hj. rewrite X2. apply Ae; assumption. }
  assert (V1' : Cre v1 = hsn2 hs (given_sum ns x given)) by (rewrite V1; unfold hsn2, norm2_of, inner_of; f_equal; apply N; assumption).
  assert (V2' : Cre v2 = hsn2 hs ident) by (rewrite V2; unfold hsn2, norm2_of, inner_of; f_equal; apply N; [exact Se| |]; intros; apply Ae; assumption).
  rewrite Gi', V1', V2'. reflexivity.
Qed.
End QR.
