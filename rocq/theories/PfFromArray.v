(** from_array, from_array_global, split_sites (mparray.py 189-246, 501-518, 1781-1804). *)
From Verif Require Export PfGram PfOrder.

Section FromArray.
Context {K : StarRing}.
Add Ring Kr : (k_ring K).
Variable qr : nd K -> res (nd K * nd K).
Hypothesis Hqr : qr_sound qr.
Notation F := (qr_fails qr).

(** Bond dimensions produced by successive QR decompositions. *)
Fixpoint qranks (l : nat) (ps : list (list nat)) (r : nat) : list nat :=
  match ps with
  | [] => []
  | [p] => []
  | p :: ps' => let k := Nat.min (l * size p) (size (concat ps') * r) in k :: qranks k ps' r
  end.

(** One factor is split off. *)
Lemma extract_step (t : nd K) p p' : lt_ok t -> 0 < size (shp t) -> pdims t = p ++ p' ->
  let l := ldim t in let r := rdim t in
  let k := Nat.min (l * size p) (size p' * r) in
  firstn (S (length p)) (shp t) = l :: p /\ skipn (S (length p)) (shp t) = p' ++ [r] /\ 0 < k /\
  outc F (do m <- reshape_py t [Z.of_nat (size (firstn (S (length p)) (shp t))); -1]%Z; qr m)
    (fun f => let '(q, s) := f in
       ldim s = k /\
       exists t1 t2,
         reshape_py q (zshape (firstn (S (length p)) (shp t) ++ [k])) = Ok t1 /\
         reshape_py s (zshape (k :: skipn (S (length p)) (shp t))) = Ok t2 /\
         lt_ok t1 /\ ldim t1 = l /\ pdims t1 = p /\ rdim t1 = k /\ 0 < size (shp t1) /\ left_iso t1 /\
         lt_ok t2 /\ ldim t2 = k /\ pdims t2 = p' /\ rdim t2 = r /\ 0 < size (shp t2) /\
         forall a i j b, a < l -> inr i p -> inr j p' -> b < r ->
           ent t a (i ++ j) b = bigsum k (fun c => ent t1 a i c * ent t2 c j b)%K).
Proof.
  intros Ht Hp Ep l r k. pose proof (lt_ok_shp t Ht) as Es. rewrite Ep in Es. fold l r in Es.
  assert (Es' : shp t = (l :: p) ++ (p' ++ [r])) by (rewrite Es; cbn; rewrite app_assoc; reflexivity).
  assert (E1 : firstn (S (length p)) (shp t) = l :: p).
  { rewrite Es'. change (S (length p)) with (length (l :: p)). apply firstn_at. }
  assert (E2 : skipn (S (length p)) (shp t) = p' ++ [r]).
  { rewrite Es'. change (S (length p)) with (length (l :: p)). rewrite skipn_app, skipn_all, Nat.sub_diag. reflexivity. }
  assert (Sz : size (shp t) = (l * size p) * (size p' * r)).
  { rewrite Es', size_app, size_cons, size_app, size_single. reflexivity. }
  assert (Hm : 0 < l * size p) by nia. assert (Hn : 0 < size p' * r) by nia.
  split; [exact E1|]. split; [exact E2|]. split; [unfold k; lia|].
  rewrite E1, size_cons, E2.
  set (m := l * size p) in *. set (n := size p' * r) in *.
  assert (R : reshape_py t [Z.of_nat m; -1]%Z = Ok (reshape t [m; n])).
  { unfold reshape_py. assert (R : reshape_to [Z.of_nat m; -1]%Z [m; n]).
    { apply (RT_one [m] n []); [rewrite size_single; lia|rewrite size_nil; lia]. }
    rewrite Sz, <- (size2 m n), (resolve_shape_spec _ _ R). reflexivity. }
  rewrite R. cbn [bind].
  assert (M : is_mat (reshape t [m; n]) m n).
  { split; [reflexivity|]. split; [apply wf_reshape; [apply Ht|rewrite size2; symmetry; exact Sz]|]. auto. }
  eapply outc_weaken; [apply (qr_outc qr m n _ Hqr M)|auto|]. intros [q s] [Q1 [Q2 [Q3 [Q4 [Q5 Q6]]]]].
  cbn [fst snd] in *. fold k in Q1, Q3, Q5, Q6. split; [exact (ldim_mk s k [n] Q3)|].
  exists (reshape q (l :: p ++ [k])), (reshape s (k :: p' ++ [r])).
  split; [apply (zshape_reshape q (l :: p ++ [k])); rewrite Q1, size_cons, size_app, size_single, size2; fold m; unfold m; ring|].
  split; [apply (zshape_reshape s (k :: p' ++ [r])); rewrite Q3, size_cons, size_app, size_single, size2; reflexivity|].
  destruct (lten_spec q l p m k Q1 Q2 eq_refl) as [A1 [A2 [A3 [A4 [A5 [A6 A7]]]]]].
  destruct (rten_spec s p' r k n Q3 Q4 eq_refl) as [B1 [B2 [B3 [B4 [B5 [B6 B7]]]]]].
  split; [exact A1|]. split; [exact A2|]. split; [exact A3|]. split; [exact A4|]. split; [rewrite A5; apply Nat.mul_pos_pos; unfold k; lia|].
  split; [apply A7; exact Q6|]. split; [exact B1|]. split; [exact B2|]. split; [exact B3|]. split; [exact B4|].
  split; [rewrite B5; apply Nat.mul_pos_pos; unfold k; lia|].
  intros a i j b Ha Hi Hj Hb.
  assert (Ra : ravel (l :: p) (a :: i) < m) by (unfold m; rewrite <- size_cons; apply ravel_lt; apply inr_cons; assumption).
  assert (Rb : ravel (p' ++ [r]) (j ++ [b]) < n).
  { replace n with (size (p' ++ [r])) by (rewrite size_app, size_single; reflexivity). apply ravel_lt. apply inr_app; [exact Hj|apply inr_single; exact Hb]. }
  transitivity (get (reshape t [m; n]) [ravel (l :: p) (a :: i); ravel (p' ++ [r]) (j ++ [b])]).
  - symmetry. unfold ent. apply get_reshape'. rewrite Es'. replace (a :: (i ++ j) ++ [b]) with ((a :: i) ++ (j ++ [b])) by (cbn; rewrite app_assoc; reflexivity).
    rewrite (ravel_app (l :: p)) by (apply inr_cons; assumption). rewrite size_app, size_single. fold n.
    cbn [ravel]. rewrite size_single, size_nil. lia.
  - rewrite Q5 by assumption. apply bigsum_ext. intros c Hc. rewrite A6, B6 by assumption. reflexivity.
Qed.

(** The whole chain: [ps] are the legs of the sites; a trailing group must not be
    empty, since the code stops when the legs are used up. *)
Definition splits (ps : list (list nat)) : Prop := ps <> [] /\ (length ps = 1 \/ last ps [] <> []).

Lemma splits_tl p p2 ps : splits (p :: p2 :: ps) -> splits (p2 :: ps) /\ concat (p2 :: ps) <> [].
Proof.
  intros [_ [H|H]]; [discriminate|]. change (last (p :: p2 :: ps) []) with (last (p2 :: ps) []) in H. split.
  - split; [discriminate|right; exact H].
  - intros E. apply H. clear H. revert p2 E. induction ps as [|q ps IH]; intros p2 E; cbn in E.
    + rewrite app_nil_r in E. exact E.
    + change (last (p2 :: q :: ps) []) with (last (q :: ps) []). apply IH. apply app_eq_nil in E. apply E.
Qed.

Lemma extract_factors_spec ps rest : splits ps -> forall t, lt_ok t -> 0 < size (shp t) -> pdims t = concat ps ->
  outc F (extract_factors qr t (map (@length nat) ps ++ rest))
    (fun ts => chain_ok ts (ldim t) (rdim t) /\ map pdims ts = ps /\ map ldim (tl ts) = qranks (ldim t) ps (rdim t) /\
       Forall left_iso (removelast ts) /\
       forall is a b, Forall2 inr is ps -> a < ldim t -> b < rdim t -> amp ts is a b = ent t a (concat is) b).
Proof.
  induction ps as [|p ps IH]; intros Hs t Ht Hp Ep; [destruct Hs; congruence|].
  pose proof (lt_ok_shp t Ht) as Es.
  assert (Nd : ndim t = length (pdims t) + 2) by (unfold ndim; rewrite Es; cbn; rewrite app_length; cbn; lia).
  destruct ps as [|p2 ps].
  - cbn [concat] in Ep. rewrite app_nil_r in Ep. cbn [map app extract_factors]. rewrite Nd, Ep, Nat.eqb_refl. apply outc_ok.
    split; [split; [discriminate|split; [cbn; auto|repeat constructor; exact Hp]]|]. split; [cbn; rewrite Ep; reflexivity|].
    split; [reflexivity|]. split; [constructor|].
    intros is a b Hi Ha Hb. inversion Hi as [|i ? is' ? Hi1 Hi2]; subst. inversion Hi2; subst. cbn [amp concat]. rewrite app_nil_r.
    rewrite (bigsum_delta_r (rdim t) b (fun c => ent t a i c)) by exact Hb. reflexivity.
  - destruct (splits_tl _ _ _ Hs) as [Hs' Hne]. set (pp := p2 :: ps) in *. cbn [map app extract_factors].
    assert (Hlen : length (concat pp) <> 0) by (destruct (concat pp); [congruence|discriminate]).
    change (pdims t = p ++ concat pp) in Ep.
    rewrite Nd, Ep, app_length.
    destruct (Nat.eqb_spec (length p + length (concat pp) + 2) (length p + 2)); [lia|].
    destruct (Nat.ltb_spec (length p + length (concat pp) + 2) (length p + 2)) as [Hlt|_]; [lia|].
    destruct (extract_step t p (concat pp) Ht Hp Ep) as [E1 [E2 [Hk H]]].
    set (k := Nat.min (ldim t * size p) (size (concat pp) * rdim t)) in *.
    match goal with |- outc _ ?g _ => match type of H with outc _ ?h _ =>
      assert (Eg : g = (do f <- h; let '(q, s) := f in
         do q' <- reshape_py q (zshape (firstn (S (length p)) (shp t) ++ [ldim s]));
         do r' <- reshape_py s (zshape (ldim s :: skipn (S (length p)) (shp t)));
         do rest0 <- extract_factors qr r' (map (@length nat) pp ++ rest); Ok (q' :: rest0)))
    end end.
    { destruct (reshape_py t _) as [mm|]; cbn [bind]; [|reflexivity]. destruct (qr mm) as [[q s]|]; reflexivity. }
    rewrite Eg. clear Eg. eapply outc_bind; [exact H|]. clear H. intros [q s] [El [t1 [t2 [R1 [R2 [A1 [A2 [A3 [A4 [A5 [A6 [B1 [B2 [B3 [B4 [B5 G]]]]]]]]]]]]]]]].
    rewrite El, R1, R2. cbn [bind]. eapply outc_bind; [apply (IH Hs' t2 B1 B5 B3)|].
    intros ts [C1 [C2 [C3 [C4 C5]]]]. apply outc_ok. rewrite B2, B4 in *. destruct C1 as [Cn [Cb Cp]].
    split; [split; [discriminate|split; [|constructor; assumption]]|].
    { cbn. split; [exact A1|]. split; [exact A2|]. rewrite A4. exact Cb. }
    split; [cbn [map]; rewrite A3, C2; reflexivity|].
    split.
    { cbn [tl]. change (qranks (ldim t) (p :: pp) (rdim t)) with (k :: qranks k pp (rdim t)). rewrite <- C3.
      destruct ts as [|u ts]; [congruence|]. cbn [map tl]. destruct Cb as [_ [-> _]]. reflexivity. }
    split; [destruct ts; [congruence|]; cbn [removelast]; constructor; assumption|].
    intros is a b Hi Ha Hb. inversion Hi as [|i ? is' ? Hi1 Hi2]; subst. cbn [amp concat]. rewrite (G a i (concat is') b Ha Hi1); auto.
    + rewrite A4. apply bigsum_ext. intros c Hc. rewrite C5 by assumption. reflexivity.
    + apply inr_concat. exact Hi2.
Qed.

(** ** full_rank *)
Lemma size_concat (ps : list (list nat)) : size (concat ps) = size (map size ps).
Proof. induction ps as [|p ps IH]; [reflexivity|]. cbn [concat map]. rewrite size_app, size_cons, IH. reflexivity. Qed.

Lemma qranks_full ps : forall l L, Forall (fun p => 0 < size p) ps -> 0 < L -> l = Nat.min L (size (concat ps)) ->
  qranks l ps 1 = map (fun cut => Nat.min (L * size (firstn cut (map size ps))) (size (skipn cut (map size ps)))) (seq 1 (length ps - 1)).
Proof.
  induction ps as [|p ps IH]; intros l L HF HL El; [reflexivity|].
  destruct ps as [|p2 ps]; [reflexivity|]. set (pp := p2 :: ps) in *. change (qranks l (p :: pp) 1) with (let k := Nat.min (l * size p) (size (concat pp) * 1) in k :: qranks k pp 1). cbv zeta.
  inversion_clear HF as [|? ? Hp HF'].
  assert (Hpp : 0 < size (concat pp)).
  { clear -HF'. induction pp as [|q qs IH]; [cbn [concat]; rewrite size_nil; lia|]. inversion_clear HF'. cbn [concat]. rewrite size_app. specialize (IH H0). nia. }
  cbn [concat] in El. rewrite size_app in El.
  assert (Ek : Nat.min (l * size p) (size (concat pp) * 1) = Nat.min (L * size p) (size (concat pp))).
  { rewrite El, Nat.mul_1_r. destruct (Nat.min_spec L (size p * size (concat pp))) as [[? ->]|[? ->]]; [reflexivity|].
    rewrite !Nat.min_r by nia. reflexivity. }
  rewrite Ek. rewrite (IH _ (L * size p) HF') by (auto; nia).
  replace (length (p :: pp) - 1) with (S (length pp - 1)) by (unfold pp; cbn; lia). cbn [seq map].
  f_equal.
  - cbn [firstn skipn]. rewrite size_single, <- size_concat. reflexivity.
  - rewrite <- (seq_shift _ 1), map_map. apply map_ext. intros cut. cbn [firstn skipn]. rewrite size_cons. f_equal. ring.
Qed.

Lemma qranks_full_rank ps : Forall (fun p => 0 < size p) ps -> qranks 1 ps 1 = full_rank ps.
Proof.
  intros H. assert (Hp : 0 < size (concat ps)).
  { induction H as [|q qs Hq H IH]; [cbn [concat]; rewrite size_nil; lia|]. cbn [concat]. rewrite size_app. nia. }
  unfold full_rank. rewrite (qranks_full ps 1 1 H) by lia.
  apply map_ext. intros cut. rewrite Nat.mul_1_l. reflexivity.
Qed.

Lemma size_pos_concat ps : 0 < size (concat ps) -> Forall (fun p => 0 < size p) ps.
Proof. induction ps as [|p ps IH]; intros H; constructor; cbn [concat] in H; rewrite size_app in H; [nia|apply IH; nia]. Qed.

(** ** from_array *)
Definition left_form (z : ltens K) : Prop :=
  canonical_form z = (Z.of_nat (llen z) - 1, Z.of_nat (llen z))%Z /\ canon_true z.

Lemma left_form_mk ts : ts <> [] -> Forall left_iso (removelast ts) ->
  left_form (mkLt ts (Z.of_nat (length ts) - 1) (Z.of_nat (length ts))).
Proof.
  intros Hne HF. split; [reflexivity|]. unfold canon_true, llen. cbn [lts lcan rcan]. split; intros k H1 H2; [|lia].
  rewrite (app_removelast_last dummy Hne). rewrite app_nth1 by (rewrite (app_removelast_last dummy Hne) in H1, H2; rewrite app_length in *; cbn in *; lia).
  rewrite Forall_forall in HF. apply HF. apply nth_In. rewrite (app_removelast_last dummy Hne) in H1, H2. rewrite app_length in *; cbn in *; lia.
Qed.

Lemma from_array_virtual (t : nd K) ps rest : lt_ok t -> 0 < size (shp t) -> pdims t = concat ps -> splits ps ->
  outc F (from_array qr t (NDList (map (@length nat) ps ++ rest)) true)
    (fun z => chain_ok (lts z) (ldim t) (rdim t) /\ mshape z = ps /\ ranks z = qranks (ldim t) ps (rdim t) /\ left_form z /\
       forall is a b, Forall2 inr is ps -> a < ldim t -> b < rdim t -> amp (lts z) is a b = ent t a (concat is) b).
Proof.
  intros Ht Hp Ep Hs. unfold from_array. eapply outc_bind; [apply (extract_factors_spec ps rest Hs t Ht Hp Ep)|].
  intros ts [[C1 [C2 C3]] [D [E [G A]]]]. assert (0 < length ts) by (destruct ts; [congruence|cbn; lia]).
  rewrite (lt_init_ok ts _ _ _ _ C1 C2) by (unfold cf_ok; lia). apply outc_ok.
  split; [split; auto|]. split; [exact D|]. split; [exact E|]. split; [apply left_form_mk; assumption|exact A].
Qed.

Theorem from_array_spec (a : nd K) ps rest : ndwf a -> 0 < size (shp a) -> shp a = concat ps -> splits ps ->
  outc F (from_array qr a (NDList (map (@length nat) ps ++ rest)) false)
    (fun z => mpa_ok z /\ mshape z = ps /\ to_array z = a /\ ranks z = full_rank ps /\ left_form z).
Proof.
  intros Hw Hp Es Hs. destruct (add_virt_ok a Hw) as [A [B [C D]]].
  assert (Hp' : 0 < size (shp (add_virt a))) by (rewrite (size_lt _ A), B, C, D; lia).
  pose proof (from_array_virtual (add_virt a) ps rest A Hp' ltac:(rewrite D; exact Es) Hs) as H.
  unfold from_array in *. eapply outc_weaken; [exact H|auto|]. clear H. intros z [[Z1 [Z2 Z3]] [Z4 [Z5 [Z6 Z7]]]].
  rewrite B, C in *. assert (Hz : mpa_ok z) by (split; assumption). split; [exact Hz|]. split; [exact Z4|].
  split; [|split; [|exact Z6]].
  - apply to_array_ext; auto; [rewrite Z4; exact Es|]. intros is Hi. unfold idx_ok in Hi. fold (mshape z) in Hi. rewrite Z4 in Hi.
    rewrite Z7 by (auto; lia). apply ent_add_virt. rewrite Es. apply inr_concat. exact Hi.
  - rewrite Z5. apply qranks_full_rank. apply size_pos_concat. rewrite <- Es. exact Hp.
Qed.

(** ** An integer number of legs *)
Lemma extract_repeat n : 0 < n -> forall ps, Forall (fun p => length p = n) ps -> map (@length nat) ps = repeat n (length ps).
Proof. intros Hn ps HF. induction HF as [|p ps Hp HF IH]; [reflexivity|]. cbn. rewrite Hp, IH. reflexivity. Qed.

Lemma splits_n n ps : 0 < n -> ps <> [] -> Forall (fun p => length p = n) ps -> splits ps.
Proof.
  intros Hn Hne HF. split; [exact Hne|]. right. destruct (exists_last Hne) as [l [p ->]]. rewrite last_last.
  apply Forall_app in HF. destruct HF as [_ HF]. inversion HF; subst. destruct p; [cbn in *; lia|discriminate].
Qed.

Lemma extract_int_spec n ps : (0 < n \/ length ps = 1) -> ps <> [] -> Forall (fun p => length p = n) ps -> forall t, lt_ok t -> 0 < size (shp t) -> pdims t = concat ps ->
  outc F (extract_factors_int qr t n)
    (fun ts => chain_ok ts (ldim t) (rdim t) /\ map pdims ts = ps /\ map ldim (tl ts) = qranks (ldim t) ps (rdim t) /\
       Forall left_iso (removelast ts) /\
       forall is a b, Forall2 inr is ps -> a < ldim t -> b < rdim t -> amp ts is a b = ent t a (concat is) b).
Proof.
  intros Hn Hne HF t Ht Hp Ep. unfold extract_factors_int.
  assert (Hs : splits ps).
  { destruct Hn as [Hn|Hn]; [apply (splits_n n); assumption|]. split; [exact Hne|left; exact Hn]. }
  pose proof (lt_ok_shp t Ht) as Es.
  assert (Nd : ndim t = length (pdims t) + 2) by (unfold ndim; rewrite Es; cbn; rewrite app_length; cbn; lia).
  assert (Lp : length (pdims t) = length ps * n).
  { rewrite Ep. clear -HF. induction HF as [|p ps Hp HF IH]; [reflexivity|]. cbn [concat length]. rewrite app_length, IH, Hp. lia. }
  assert (Er : repeat n (ndim t) = map (@length nat) ps ++ repeat n (ndim t - length ps)).
  { replace (map (@length nat) ps) with (repeat n (length ps)).
    - rewrite <- repeat_app. f_equal. rewrite Nd, Lp. nia.
    - clear -HF. induction HF as [|p ps Hp HF IH]; [reflexivity|]. cbn. rewrite Hp, IH. reflexivity. }
  rewrite Er. pose proof (extract_factors_spec ps (repeat n (ndim t - length ps)) Hs t Ht Hp Ep) as H.
  destruct H as [[z [E H]]|[E H]]; rewrite E; [left; exists z; auto|right; auto].
Qed.

(** Every shape whose length is a multiple of [n] is cut into groups of [n]. *)
Lemma cut_groups (A : Type) n m : forall l : list A, length l = m * n ->
  exists ps, concat ps = l /\ length ps = m /\ Forall (fun p => length p = n) ps.
Proof.
  induction m as [|m IH]; intros l H.
  - destruct l; [|discriminate]. exists []. auto.
  - destruct (IH (skipn n l)) as [ps [E [L HF]]]; [rewrite skipn_length; cbn in H; lia|].
    exists (firstn n l :: ps). cbn [concat length]. rewrite E, firstn_skipn, L. split; [reflexivity|]. split; [reflexivity|].
    constructor; [rewrite firstn_length; cbn in H; lia|exact HF].
Qed.

Theorem from_array_int_spec (a : nd K) n ps : ndwf a -> 0 < size (shp a) -> shp a = concat ps -> ps <> [] ->
  (0 < n \/ length ps = 1) -> Forall (fun p => length p = n) ps ->
  outc F (from_array qr a (NDInt n) false)
    (fun z => mpa_ok z /\ mshape z = ps /\ to_array z = a /\ ranks z = full_rank ps /\ left_form z).
Proof.
  intros Hw Hp Es Hne Hn HF. destruct (add_virt_ok a Hw) as [A [B [C D]]].
  assert (Hp' : 0 < size (shp (add_virt a))) by (rewrite (size_lt _ A), B, C, D; lia).
  unfold from_array. eapply outc_bind; [apply (extract_int_spec n ps Hn Hne HF _ A Hp'); rewrite D; exact Es|].
  rewrite B, C. intros ts [[C1 [C2 C3]] [E1 [E2 [E3 E4]]]]. assert (0 < length ts) by (destruct ts; [congruence|cbn; lia]).
  rewrite (lt_init_ok ts _ _ _ _ C1 C2) by (unfold cf_ok; lia). apply outc_ok.
  assert (Hz : mpa_ok (mkLt ts (Z.of_nat (length ts) - 1) (Z.of_nat (length ts)))) by (split; assumption).
  split; [exact Hz|]. split; [exact E1|]. split; [|split; [|apply left_form_mk; assumption]].
  - apply to_array_ext; auto; [unfold mshape; cbn [lts]; rewrite E1; exact Es|]. intros is Hi. unfold idx_ok in Hi. cbn [lts] in *. rewrite E1 in Hi.
    rewrite E4 by (auto; lia). apply ent_add_virt. rewrite Es. apply inr_concat. exact Hi.
  - unfold ranks. cbn [lts]. rewrite E2. apply qranks_full_rank. apply size_pos_concat. rewrite <- Es. exact Hp.
Qed.

Theorem from_array_none_spec (a : nd K) : ndwf a -> 0 < size (shp a) ->
  outc F (from_array qr a NDNone false)
    (fun z => mpa_ok z /\ mshape z = [shp a] /\ to_array z = a /\ ranks z = [] /\ left_form z).
Proof.
  intros Hw Hp. assert (Hc : shp a = concat [shp a]) by (cbn; rewrite app_nil_r; reflexivity).
  pose proof (from_array_int_spec a (ndim a) [shp a] Hw Hp Hc ltac:(discriminate) ltac:(right; reflexivity) ltac:(repeat constructor)) as H.
  exact H.
Qed.

(** ** Errors *)
(** The legs do not suffice. *)
Lemma extract_factors_short t n ns : ndim t < n + 2 -> extract_factors qr t (n :: ns) = Err AssertionError.
Proof.
  intros H. cbn [extract_factors]. destruct (Nat.eqb_spec (ndim t) (n + 2)); [lia|]. destruct (Nat.ltb_spec (ndim t) (n + 2)); [reflexivity|lia].
Qed.
Theorem from_array_none_virtual (t : nd K) : 0 < ndim t -> from_array qr t NDNone true = Err AssertionError.
Proof.
  intros H. unfold from_array, extract_factors_int.
  replace (extract_factors qr t (repeat (ndim t) (ndim t))) with (@Err (list (nd K)) AssertionError); [reflexivity|].
  destruct (ndim t) eqn:E; [lia|]. cbn [repeat]. symmetry. apply extract_factors_short. lia.
Qed.

(** ** from_array_global *)
Lemma size_pos_inr sh : 0 < size sh <-> exists idx, inr idx sh.
Proof.
  split; [intros H; exists (unravel sh 0); apply unravel_inr; exact H|]. intros [idx H]. apply ravel_lt in H. lia.
Qed.
Theorem from_array_global_spec (a : nd K) s p : ndwf a -> 0 < size (shp a) -> 0 < s -> 0 < p -> ndim a = s * p ->
  outc F (from_array_global qr a (NDInt p))
    (fun z => mpa_ok z /\ llen z = s /\ Forall (fun sh => length sh = p) (mshape z) /\ to_array_global z = Ok a /\
       global_to_local a s 0 0 = Ok (to_array z) /\ ranks z = full_rank (mshape z) /\ left_form z).
Proof.
  intros Hw Hp Hs Hpp Hn. unfold from_array_global. cbn [bind]. destruct (Nat.eqb_spec p 0); [lia|].
  rewrite Hn, Nat.mod_mul, Nat.div_mul by lia. cbn [Nat.eqb passert].
  destruct (global_to_local_spec a s p 0 0 Hw Hs ltac:(lia)) as [b [E [Wb [Nb [L G]]]]]. rewrite E. cbn [bind].
  destruct (cut_groups nat p s (shp b)) as [ps [C1 [C2 C3]]]; [fold (ndim b); lia|].
  assert (Hb : 0 < size (shp b)).
  { apply size_pos_inr in Hp. destruct Hp as [idx Hi]. destruct (G idx Hi) as [idx' [Hi' _]]. apply size_pos_inr. exists idx'. exact Hi'. }
  eapply outc_weaken; [apply (from_array_int_spec b p ps Wb Hb (eq_sym C1)); auto|auto|].
  { intros ->. cbn in C2. lia. }
  intros z [Z1 [Z2 [Z3 [Z4 Z5]]]]. split; [exact Z1|].
  assert (Ln : llen z = s) by (rewrite <- mshape_length, Z2; exact C2). split; [exact Ln|]. split; [rewrite Z2; exact C3|].
  split; [unfold to_array_global; rewrite Z3, Ln; exact L|]. split; [rewrite Z3; reflexivity|]. split; [rewrite Z4, Z2; reflexivity|exact Z5].
Qed.

(** ** split_sites *)
Lemma mapM_outc {A B : Type} G (f : A -> res B) (P : A -> B -> Prop) l :
  (forall x, In x l -> outc G (f x) (P x)) -> outc G (mapM f l) (Forall2 P l).
Proof.
  induction l as [|x l IH]; intros H; cbn [mapM]; [apply outc_ok; constructor|].
  eapply outc_bind; [apply H; left; reflexivity|]. intros y Hy. eapply outc_bind; [apply IH; intros; apply H; right; assumption|].
  intros ys Hys. apply outc_ok. constructor; assumption.
Qed.

(** [gss]: for every site the legs of the sites it is split into. *)
Theorem split_sites_spec (x : ltens K) n gss : chain_ok (lts x) 1 1 -> 0 < n -> mshape x = map (@concat nat) gss ->
  Forall (fun gs => length gs = n /\ exists d, (0 < d \/ n = 1) /\ Forall (fun g => length g = d) gs) gss ->
  outc F (split_sites qr x n)
    (fun z => mpa_ok z /\ pos (lts z) /\ mshape z = concat gss /\ to_array z = to_array x /\ canonical_form z = (0%Z, Z.of_nat (llen z))).
Proof.
  intros [Hne [HB HP]] Hn Em HG. unfold split_sites.
  pose proof (bonds_ok _ _ _ HB) as HO.
  assert (HM2 : outc F (mapM (fun t : nd K =>
      if Nat.eqb n 0 then Err ZeroDivisionError else
      passert (Nat.eqb ((ndim t - 2) mod n) 0) (extract_factors_int qr t ((ndim t - 2) / n))) (lts x))
      (fun tss => Forall3 (fun t gs ts => chain_ok ts (ldim t) (rdim t) /\ map pdims ts = gs /\
     forall is a b, Forall2 inr is gs -> a < ldim t -> b < rdim t -> amp ts is a b = ent t a (concat is) b) (lts x) gss tss)).
  { unfold mshape in Em. clear Hne HB. revert gss Em HG HP HO. induction (lts x) as [|t ts IH]; intros gss Em HG HP HO.
    - destruct gss; [|discriminate]. cbn [mapM]. apply outc_ok. constructor.
    - destruct gss as [|gs gss]; [discriminate|]. cbn [map] in Em. injection Em as E1 E2.
      inversion HG as [|? ? [G1 [d [G2 G3]]] HG']; subst. inversion HP as [|? ? P1 P2]; subst. inversion HO as [|? ? O1 O2]; subst.
      cbn [mapM]. destruct (Nat.eqb_spec (length gs) 0); [lia|].
      assert (Nd : ndim t - 2 = d * length gs).
      { unfold ndim. rewrite (lt_ok_shp t O1), E1. cbn [length]. rewrite app_length. cbn [length].
        enough (length (concat gs) = d * length gs) by lia. clear -G3. induction G3 as [|g gs Hg G3 IH]; [cbn; lia|]. cbn [concat length]. rewrite app_length, IH, Hg. lia. }
      rewrite Nd, Nat.mod_mul, Nat.div_mul by lia. cbn [Nat.eqb passert].
      eapply outc_bind.
      + apply (extract_int_spec d gs); auto; try tauto. destruct gs; [cbn in *; lia|discriminate].
      + intros us [U1 [U2 [U3 [U4 U5]]]]. eapply outc_bind; [apply (IH gss); assumption|]. intros tss Ht. apply outc_ok.
        constructor; auto. }
  eapply outc_bind; [exact HM2|]. intros tss HT.
  assert (HT' : forall l r, bonds (lts x) l r -> bonds (concat tss) l r /\ pos (concat tss) /\ map pdims (concat tss) = concat gss /\
     (lts x <> [] -> concat tss <> []) /\
     forall iss a b, Forall2 (Forall2 inr) iss gss -> a < l -> b < r -> amp (concat tss) (concat iss) a b = amp (lts x) (map (@concat nat) iss) a b).
  { clear -HT. induction HT as [|t gs ts xs gss tss [[C1 [C2 C3]] [C4 C5]] HT IH]; intros l r B.
    - cbn in B. subst r. split; [reflexivity|]. split; [constructor|]. split; [reflexivity|]. split; [auto|].
      intros iss a b Hi _ _. inversion Hi; subst. reflexivity.
    - destruct B as [B1 [B2 B3]]. destruct (IH _ _ B3) as [I1 [I2 [I3 [I4 I5]]]]. cbn [concat]. split; [apply bonds_app; exists (rdim t); split; [rewrite <- B2; exact C2|exact I1]|].
      split; [apply Forall_app; split; assumption|]. split; [rewrite map_app, C4, I3; reflexivity|].
      split; [intros _ E; apply app_eq_nil in E; destruct E; congruence|].
      intros iss a b Hi Ha Hb. inversion Hi as [|is ? iss' ? Hi1 Hi2]; subst. cbn [concat map amp].
      rewrite (amp_app ts (concat tss) is _ a b (ldim t) (rdim t)); [|rewrite (Forall2_len _ _ _ _ _ Hi1), map_length; reflexivity|exact C2|exact Ha].
      apply bigsum_ext. intros c Hc. rewrite C5, I5 by assumption. reflexivity. }
  destruct (HT' 1 1 HB) as [B [HPo [Sh [Ne A]]]]. specialize (Ne Hne).
  destruct (mpa_new_chain _ Ne B) as [z [Ez [Hz [Lz [Z1 Z2]]]]]. rewrite Ez. apply outc_ok.
  split; [exact Hz|]. split; [rewrite Lz; exact HPo|]. assert (Sz : mshape z = concat gss) by (unfold mshape; rewrite Lz; exact Sh). split; [exact Sz|].
  split; [|unfold canonical_form, llen; rewrite Lz, Z1, Z2; reflexivity].
  apply to_array_ext; [exact Hz|apply wf_to_array| |].
  - rewrite shp_to_array by (split; assumption). rewrite Em, Sz. clear. induction gss as [|g gs IH]; [reflexivity|]. cbn [map concat]. rewrite concat_app, IH. reflexivity.
  - intros is Hi. unfold idx_ok in Hi. fold (mshape z) in Hi. rewrite Sz in Hi.
    assert (G : exists iss, is = concat iss /\ Forall2 (Forall2 inr) iss gss).
    { clear -Hi. revert is Hi. induction gss as [|g gs IH]; intros is Hi; cbn [concat] in Hi.
      - inversion Hi; subst. exists []. split; [reflexivity|constructor].
      - apply Forall2_app_inv_r in Hi. destruct Hi as [i1 [i2 [H1 [H2 ->]]]]. destruct (IH _ H2) as [iss [-> H3]].
        exists (i1 :: iss). split; [reflexivity|constructor; assumption]. }
    destruct G as [iss [-> Hiss]]. rewrite Lz, A by (auto; lia).
    replace (concat (concat iss)) with (concat (map (@concat nat) iss)) by (clear; induction iss as [|i iss IH]; [reflexivity|]; cbn [map concat]; rewrite concat_app, IH; reflexivity).
    symmetry. apply get_to_array; [split; assumption|]. unfold idx_ok. fold (mshape x). rewrite Em. clear -Hiss.
    induction Hiss as [|i g iss gss H1 H2 IH]; cbn [map]; constructor; [apply inr_concat; exact H1|exact IH].
Qed.
End FromArray.
