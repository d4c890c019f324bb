(** The state left by [compress], [norm] and [singularvals]. *)
From Verif Require Import ObjState PfCompress PfHistory PfBounds PfObjState.

Section ObjState2.
Context {K : StarRing}.
Add Ring Kr : (k_ring K).

Lemma bonds_rdim_ldim (ts : list (nd K)) : forall l r, bonds ts l r -> ts <> [] -> map rdim ts = map ldim (tl ts) ++ [r].
Proof.
  induction ts as [|t ts IH]; intros l r B Hne; [congruence|]. destruct B as (_ & _ & B). destruct ts as [|u ts]; [cbn in B |- *; congruence|].
  cbn [map tl app]. specialize (IH _ _ B ltac:(discriminate)). cbn [map tl] in IH. rewrite IH. destruct B as (_ & E & _). cbn [map app]. congruence.
Qed.
Lemma Forall2_le_app_inv (a b : list nat) x y : Forall2 le (a ++ [x]) (b ++ [y]) -> Forall2 le a b.
Proof.
  revert b. induction a as [|u a IH]; intros b H.
  - destruct b as [|v b]; [constructor|]. inversion H as [|? ? ? ? _ H']; subst. destruct b; inversion H'.
  - destruct b as [|v b]; inversion H as [|? ? ? ? H1 H2]; subst; [destruct a; inversion H2|]. constructor; auto.
Qed.

(** What is left of [x]: a valid object of the same shape and not larger bonds, an
    orthogonal projection of [x], with a true canonical form if [x] had one; the same
    array if [E]. *)
Definition projected (E : Prop) (l r : nat) (x z : ltens K) : Prop :=
  chain_ok (lts z) l r /\ mshape z = mshape x /\ Forall2 le (ranks z) (ranks x) /\
  ovl l r (lts x) (lts z) = ovl l r (lts z) (lts z) /\
  (cform_wk x -> cform_wk z) /\ (cform_ok x -> cform_ok z) /\ (canon_true x -> canon_true z) /\ (E -> same_amps l r x z).
Lemma projected_refl E l r x : chain_ok (lts x) l r -> projected E l r x x.
Proof. intros H. split; [exact H|]. split; [reflexivity|]. split; [apply Forall2_le_refl|]. split; [reflexivity|]. split; [auto|]. split; [auto|]. split; [auto|]. intros _ is a b _ _ _. reflexivity. Qed.
Lemma kept_projected (E E' : Prop) l r x y z : (E -> E') -> kept l r x y -> projected E' l r y z -> projected E l r x z.
Proof.
  intros HE ((S1 & S2 & S3 & S4 & S5 & S6) & W & C) (P1 & P2 & P3 & P4 & P5 & P6 & P7 & P8).
  split; [exact P1|]. split; [congruence|]. split; [eapply Forall2_le_trans; eassumption|]. split.
  - rewrite <- P4. symmetry. apply ovl_amps; assumption.
  - split; [auto|]. split; [auto|]. split; [auto|]. intros He is a b Hi Ha Hb. rewrite (P8 (HE He)) by (try assumption; rewrite S2; exact Hi). apply S4; assumption.
Qed.
Lemma kept_projected1 E l r x y : kept l r x y -> projected E l r x y.
Proof. intros H. eapply (kept_projected E True); [auto|exact H|]. apply projected_refl. apply H. Qed.

Section SVD.
Variable svd : nd K -> res (nd K * list K * nd K).
Variable svdfunc : nd K -> nat -> res (nd K * list K * nd K).
Hypothesis Hsvd : svd_sound svd.
Hypothesis Hts : tsvd_sound svdfunc.

Lemma csvd_r_call_eq rank relerr s x : csvd_r_call svd svdfunc rank relerr s x = commit2 x (csvd_r_step svd svdfunc rank relerr x s).
Proof.
  unfold csvd_r_call, csvd_r_step. rewrite cbind_eval. destruct (csvd_r_factor svd svdfunc rank relerr x s) as [[[[[t u] sv] v] k]|e]; [|reflexivity]. cbn [bind].
  rewrite cbind_eval. destruct (reshape_py (take_cols k u) _); [|reflexivity]. cbn [bind]. rewrite cbind_eval. destruct (pyget (lts x) (s + 1)); [|reflexivity]. cbn [bind].
  rewrite cbind_eval. destruct (scale_rows _ _); [|reflexivity]. cbn [bind]. rewrite cbind_eval. destruct (matdot_py _ _); [|reflexivity]. cbn [bind].
  unfold cbind. rewrite update_slice_call_eq. destruct (lt_update_slice x _ _ _); reflexivity.
Qed.
Lemma csvd_l_call_eq rank relerr s x : csvd_l_call svd svdfunc rank relerr s x = commit2 x (csvd_l_step svd svdfunc rank relerr x s).
Proof.
  unfold csvd_l_call, csvd_l_step. rewrite cbind_eval. destruct (pyget (lts x) s) as [t|]; [|reflexivity]. cbn [bind].
  rewrite cbind_eval. destruct (shape0 t) as [d|]; [|reflexivity]. cbn [bind]. rewrite cbind_eval. destruct (reshape_py t _) as [m|]; [|reflexivity]. cbn [bind].
  rewrite cbind_eval. destruct (svd_site svd svdfunc rank relerr m) as [[[[u sv] v] k]|e]; [|reflexivity]. cbn [bind].
  rewrite cbind_eval. destruct (pyget (lts x) (s - 1)); [|reflexivity]. cbn [bind]. rewrite cbind_eval. destruct (scale_cols _ _); [|reflexivity]. cbn [bind].
  rewrite cbind_eval. destruct (matdot_py _ _); [|reflexivity]. cbn [bind]. rewrite cbind_eval. destruct (reshape_py (take_rows k v) _); [|reflexivity]. cbn [bind].
  unfold cbind. rewrite update_slice_call_eq. destruct (lt_update_slice x _ _ _); reflexivity.
Qed.
Lemma cgen_csvd step (m : Z -> call (list K * nat)) : (forall s x, m s x = commit2 x (step x s)) -> forall l (x y : ltens K) r, cgen m l x = (y, r) ->
  (exists ys, r = Ok ys /\ csvd_loop step l x = Ok (y, ys)) \/ (exists e k ys, r = Err e /\ csvd_loop step l x = Err e /\ k < length l /\ csvd_loop step (firstn k l) x = Ok (y, ys)).
Proof. intros Hm. apply (cgen_prefix m step (csvd_loop step)); [reflexivity|reflexivity|exact Hm]. Qed.
Lemma cgen_csvd' step (m : Z -> call (list K * nat)) : (forall s x, m s x = commit2 x (step x s)) -> forall l (x y : ltens K) r, cgen m l x = (y, r) ->
  exists k ys, k <= length l /\ csvd_loop step (firstn k l) x = Ok (y, ys).
Proof.
  intros Hm l x y r E. destruct (cgen_csvd step m Hm l x y r E) as [(ys & _ & H)|(e & k & ys & _ & _ & Hk & H)].
  - exists (length l), ys. rewrite firstn_all. auto.
  - exists k, ys. split; [lia|exact H].
Qed.

Lemma csvd_r_left l r rank relerr n x y o : chain_ok (lts x) l r -> 0 < rank -> relerr_ok relerr -> (0 <= lcan x)%Z -> n < llen x ->
  cgen (csvd_r_call svd svdfunc rank relerr) (pyrange 0 (Z.of_nat n) 1) x = (y, o) -> projected (relerr_exact relerr /\ Forall (fun k => k <= rank) (ranks x)) l r x y.
Proof.
  intros HC Hrk Hre Hl Hn E. destruct (cgen_csvd' _ _ (csvd_r_call_eq rank relerr) _ _ _ _ E) as (k & ys0 & Hk & F).
  rewrite pyrange_up in Hk, F by lia. rewrite map_length, seq_length in Hk. rewrite firstn_map_seq in F by exact Hk. replace (Z.to_nat (Z.of_nat n - 0)) with n in Hk by lia.
  destruct x as [ts cl cr]. unfold llen in Hn. cbn [lts lcan rcan] in *.
  assert (ES : exists ys t zs, ts = ys ++ t :: zs /\ length ys = k).
  { exists (firstn k ts), (nth k ts dummy), (skipn (S k) ts). split; [|apply firstn_length_le; lia]. rewrite <- (firstn_skipn k ts) at 1. f_equal. apply skipn_cons_nth. lia. }
  destruct ES as (ys & t & zs & -> & Lk).
  rewrite (map_ext (fun k => (0 + Z.of_nat k)%Z) (fun k => Z.of_nat (@length (nd K) [] + k))) in F by reflexivity.
  destruct (outc_inv _ _ _ _ (csvd_r_loop svd svdfunc Hsvd Hts l r rank relerr Hrk Hre k ys [] t zs cl cr Lk HC (Forall_nil _) ltac:(cbn; lia)) F)
    as (us & t' & cl' & cr' & G1 & (G0 & G2) & G3 & G4 & G5 & G6 & G7 & G8 & G9 & G10 & _ & _ & _ & _ & G15 & G16 & _).
  cbn [fst snd app length] in *. subst y. destruct (Nat.eqb_spec k 0) as [->|Hk0].
  { destruct us; [|discriminate]. destruct ys; [|discriminate]. rewrite (G0 eq_refl), G2, G3. apply projected_refl. exact HC. }
  split; [exact G9|]. split; [unfold mshape; cbn [lts]; rewrite !map_app; cbn [map]; congruence|]. split.
  { unfold ranks. cbn [lts]. apply (Forall2_le_app_inv _ _ r r). rewrite <- (bonds_rdim_ldim _ l r (proj1 (proj2 G9)) (proj1 G9)), <- (bonds_rdim_ldim _ l r (proj1 (proj2 HC)) (proj1 HC)).
    rewrite !map_app. cbn [map]. apply Forall2_app; [exact G10|]. rewrite G7. apply Forall2_le_refl. }
  split; [exact G15|]. assert (LL : llen (mkLt (us ++ t' :: zs) cl' cr') = llen (mkLt (ys ++ t :: zs) cl cr)) by (unfold llen; cbn [lts]; rewrite !app_length; cbn [length]; lia).
  assert (Hk2 : k < length (ys ++ t :: zs)) by lia.
  split; [|split; [|split]].
  - unfold cform_wk. rewrite LL. unfold llen. cbn [lts lcan rcan]. rewrite G2, G3. lia.
  - unfold cform_ok, cf_ok. rewrite LL. unfold llen. cbn [lts lcan rcan]. rewrite G2, G3. lia.
  - intros [_ T2]. split; rewrite LL; unfold llen in *; cbn [lts lcan rcan] in *; intros j Hj Hj2.
    + rewrite app_nth1 by lia. rewrite Forall_forall in G8. apply G8, nth_In. lia.
    + assert (EN : nth j (us ++ t' :: zs) dummy = nth j (ys ++ t :: zs) dummy).
      { rewrite !app_nth2 by lia. rewrite G4, Lk. destruct (j - k) as [|i] eqn:Ei; [lia|reflexivity]. }
      rewrite EN. apply T2; [lia|exact Hj2].
  - intros [Hx Hle]. refine (proj1 (G16 Hx _)). unfold ranks in Hle. cbn [lts] in Hle.
    assert (ER := bonds_rdim_ldim _ l r (proj1 (proj2 HC)) (proj1 HC)). rewrite map_app in ER. cbn [map] in ER.
    assert (EF : map rdim ys = firstn (length ys) (map ldim (tl (ys ++ t :: zs)))).
    { assert (Lt : length ys <= length (map ldim (tl (ys ++ t :: zs)))) by (rewrite map_length; destruct ys; cbn [app tl length]; rewrite ?app_length; cbn; lia).
      apply (f_equal (firstn (length ys))) in ER. rewrite firstn_app, map_length, Nat.sub_diag, app_nil_r in ER. rewrite firstn_all2 in ER by (rewrite map_length; lia).
      rewrite ER. rewrite firstn_app. replace (length ys - length (map ldim (tl (ys ++ t :: zs)))) with 0 by lia. cbn [firstn]. apply app_nil_r. }
    rewrite EF. apply Forall_forall. intros q Hq. rewrite <- (firstn_skipn (length ys) (map ldim (tl (ys ++ t :: zs)))) in Hle. apply Forall_app in Hle. destruct Hle as [Hle _]. rewrite Forall_forall in Hle. apply Hle. exact Hq.
Qed.
Lemma csvd_l_left l r rank relerr x y o : chain_ok (lts x) l r -> 0 < rank -> relerr_ok relerr -> (rcan x <= Z.of_nat (llen x))%Z ->
  cgen (csvd_l_call svd svdfunc rank relerr) (pyrange (Z.of_nat (llen x) - 1) 0 (-1)) x = (y, o) -> projected (relerr_exact relerr /\ Forall (fun k => k <= rank) (ranks x)) l r x y.
Proof.
  intros HC Hrk Hre Hr E. destruct (cgen_csvd' _ _ (csvd_l_call_eq rank relerr) _ _ _ _ E) as (k & ys0 & Hk & F).
  assert (Hlen : 0 < llen x) by (destruct HC as [Hne _]; unfold llen; destruct (lts x); [congruence|cbn; lia]).
  rewrite pyrange_down in Hk, F by lia. rewrite map_length, seq_length in Hk. rewrite firstn_map_seq in F by exact Hk.
  destruct (Nat.eqb_spec k 0) as [->|Hk0]; [injection F as <- _; apply projected_refl; exact HC|].
  destruct x as [ts cl cr]. unfold llen in Hlen, Hk, Hr, F. cbn [lts lcan rcan] in *. set (n := length ts - 1) in *.
  assert (ES : exists zs t ys, ts = zs ++ t :: ys /\ length zs = n - k /\ length ys = k).
  { exists (firstn (n - k) ts), (nth (n - k) ts dummy), (skipn (S (n - k)) ts). split; [|split; [apply firstn_length_le; lia|rewrite skipn_length; lia]].
    rewrite <- (firstn_skipn (n - k) ts) at 1. f_equal. apply skipn_cons_nth. lia. }
  destruct ES as (zs & t & ys & Ets & Lz & Ly).
  rewrite (map_ext_in _ (fun j => Z.of_nat (length zs + k - j))) in F by (intros j Hj; apply in_seq in Hj; lia).
  rewrite <- (app_nil_r ts), Ets in F. assert (HC0 : chain_ok ((zs ++ t :: ys) ++ []) l r) by (rewrite app_nil_r, <- Ets; exact HC).
  assert (HR0 : (cr <= Z.of_nat (length zs + k + 1))%Z) by lia.
  destruct (outc_inv _ _ _ _ (csvd_l_loop svd svdfunc Hsvd Hts l r rank relerr Hrk Hre k zs t ys [] cl cr Ly HC0 (Forall_nil _) HR0) F)
    as (t' & us & cl' & cr' & G1 & G2 & G3 & G4 & G5 & G6 & G7 & G8 & G9 & G10 & _ & _ & _ & _ & G15 & G16 & _).
  cbn [fst] in G1. subst y. rewrite app_nil_r in *. destruct (Nat.eqb_spec k 0); [contradiction|]. subst ts.
  split; [exact G9|]. split; [unfold mshape; cbn [lts]; rewrite !map_app; cbn [map]; congruence|]. split.
  { unfold ranks. cbn [lts]. destruct zs as [|z0 zs]; [exact G10|]. cbn [app tl]. rewrite !map_app. cbn [map]. apply Forall2_app; [apply Forall2_le_refl|]. constructor; [lia|exact G10]. }
  rewrite !app_nil_r in G15. split; [exact G15|]. assert (LL : llen (mkLt (zs ++ t' :: us) cl' cr') = llen (mkLt (zs ++ t :: ys) cl cr)) by (unfold llen; cbn [lts]; rewrite !app_length; cbn [length]; lia).
  assert (Hn2 : length (zs ++ t :: ys) = S n) by lia.
  split; [|split; [|split]].
  - unfold cform_wk. rewrite LL. unfold llen. cbn [lts lcan rcan]. rewrite G2, G3. lia.
  - unfold cform_ok, cf_ok. rewrite LL. unfold llen. cbn [lts lcan rcan]. rewrite G2, G3. lia.
  - intros [T1 _]. split; rewrite LL; unfold llen in *; cbn [lts lcan rcan] in *; intros j Hj Hj2.
    + rewrite app_nth1 by lia. specialize (T1 j ltac:(lia) Hj2). rewrite app_nth1 in T1 by lia. exact T1.
    + rewrite app_nth2 by lia. destruct (j - length zs) as [|i] eqn:Ei; [lia|]. cbn [nth]. rewrite Forall_forall in G8. apply G8, nth_In. lia.
  - intros [Hx Hle]. unfold same_amps, mshape. cbn [lts]. rewrite app_nil_r in G16 || idtac. rewrite ?app_nil_r in G16. apply G16; [exact Hx|]. unfold ranks in Hle. cbn [lts] in Hle.
    destruct zs as [|z0 zs]; [exact Hle|]. cbn [app tl] in Hle. rewrite map_app in Hle. apply Forall_app in Hle. destruct Hle as [_ Hle]. cbn [map] in Hle. inversion Hle; assumption.
Qed.

Section QR.
Variable qr : nd K -> res (nd K * nd K).

Lemma run_canon {B : Type} left right (g : call B) (h : ltens K -> res (ltens K * B)) x : (forall y, outcome (g y) = h y) ->
  outcome (cbind (canonicalize_call qr left right) (fun _ => g) x) = (do y <- canonicalize qr x left right; h y).
Proof.
  intros H. pose proof (canonicalize_call_eq qr left right x) as E. unfold cbind. destruct (canonicalize_call qr left right x) as [y [u|e]]; unfold oc in E; cbn [fst snd] in E; rewrite <- E; cbn [bind]; [apply H|reflexivity].
Qed.
Theorem norm_sq_call_eq x : outcome (norm_sq_call qr x) = (do p <- norm_sq qr x; Ok (snd p, fst p)).
Proof.
  unfold norm_sq_call, norm_sq. erewrite run_canon; [|intros y; reflexivity]. destruct (canonicalize qr x CANone CANone) as [z|e]; [|reflexivity]. cbn [bind].
  rewrite !cbind_eval. destruct (canonical_form z) as [cl cr]. cbv beta iota. rewrite !cbind_eval. destruct (cr =? 1)%Z; [|destruct (cl =? _)%Z; [|reflexivity]]; unfold outcome, eval; cbn [fst snd]; destruct (pyget _ _); reflexivity.
Qed.
Lemma compress_r_call_eq rank relerr x : outcome (compress_svd_r_call svd svdfunc rank relerr x) = (do p <- compress_svd_r svd svdfunc x rank relerr; Ok (fst (fst p), snd p)).
Proof.
  unfold compress_svd_r_call, compress_svd_r. rewrite cbind_assert. destruct (Nat.ltb 0 rank); [|reflexivity]. cbn [passert]. rewrite cbind_eval. unfold cbind.
  destruct (cgen _ _ x) as [y o] eqn:E. destruct (cgen_csvd _ _ (csvd_r_call_eq rank relerr) _ _ _ _ E) as [(ys & -> & H)|(e & k & ys & -> & H & _)]; rewrite H; cbn [bind fst snd]; [|reflexivity].
  unfold outcome, eval. cbn [fst snd]. destruct (pyget _ _); reflexivity.
Qed.
Lemma compress_l_call_eq rank relerr x : outcome (compress_svd_l_call svd svdfunc rank relerr x) = (do p <- compress_svd_l svd svdfunc x rank relerr; Ok (fst (fst p), snd p)).
Proof.
  unfold compress_svd_l_call, compress_svd_l. rewrite cbind_assert. destruct (Nat.ltb 0 rank); [|reflexivity]. cbn [passert]. rewrite cbind_eval. unfold cbind.
  destruct (cgen _ _ x) as [y o] eqn:E. destruct (cgen_csvd _ _ (csvd_l_call_eq rank relerr) _ _ _ _ E) as [(ys & -> & H)|(e & k & ys & -> & H & _)]; rewrite H; cbn [bind fst snd]; [|reflexivity].
  unfold outcome, eval. cbn [fst snd]. destruct (pyget _ _); reflexivity.
Qed.
Theorem compress_svd_call_eq rank relerr dir canon x : outcome (compress_svd_call qr svd svdfunc rank relerr dir canon x) = compress_svd qr svd svdfunc x rank relerr dir canon.
Proof.
  unfold compress_svd_call, compress_svd. rewrite cbind_eval. destruct (Nat.eqb (llen x) 1); [apply norm_sq_call_eq|].
  rewrite cbind_eval. destruct (canonical_form x) as [ln rn]. rewrite cbind_eval. cbv beta. destruct (match rank with Some r => Ok r | None => max_rank x end) as [rk|e]; [|reflexivity]. cbn [bind].
  destruct (match dir with DNone => _ | d => d end); try reflexivity.
  - destruct canon; [apply (run_canon _ _ _ (fun y => do p <- compress_svd_l svd svdfunc y rk relerr; Ok (fst (fst p), snd p))); intros y; apply compress_l_call_eq|].
    apply compress_l_call_eq.
  - destruct canon; [apply (run_canon _ _ _ (fun y => do p <- compress_svd_r svd svdfunc y rk relerr; Ok (fst (fst p), snd p))); intros y; apply compress_r_call_eq|].
    apply compress_r_call_eq.
Qed.

Hypothesis Hqr : qr_sound qr.
Theorem norm_left l r x y o : chain_ok (lts x) l r -> cform_wk x -> norm_sq_call qr x = (y, o) -> kept l r x y.
Proof.
  intros HC HW E. unfold norm_sq_call in E. unfold cbind at 1 in E. destruct (canonicalize_call qr CANone CANone x) as [z o1] eqn:E1.
  pose proof (canonicalize_left qr Hqr l r _ _ _ _ _ HC HW E1) as HK. destruct o1 as [u|e]; [|injection E as <- _; exact HK].
  rewrite cbind_eval in E. destruct (canonical_form z) as [cl cr]. rewrite cbind_eval in E. cbv beta iota in E.
  destruct (cr =? 1)%Z; [|destruct (cl =? _)%Z]; injection E as <- _; exact HK.
Qed.
Lemma compress_r_left l r rank relerr x y o : chain_ok (lts x) l r -> cform_wk x -> relerr_ok relerr -> compress_svd_r_call svd svdfunc rank relerr x = (y, o) -> projected (relerr_exact relerr /\ Forall (fun k => k <= rank) (ranks x)) l r x y.
Proof.
  intros HC HW Hre E. unfold compress_svd_r_call in E. rewrite cbind_assert in E. destruct (Nat.ltb_spec 0 rank) as [H|_]; [|injection E as <- _; apply projected_refl; exact HC].
  rewrite cbind_eval in E. unfold cbind in E. destruct (cgen _ _ x) as [z o1] eqn:E1.
  assert (HP : projected (relerr_exact relerr /\ Forall (fun k => k <= rank) (ranks x)) l r x z).
  { assert (0 < llen x) by (destruct HC as [Hne _]; unfold llen; destruct (lts x); [congruence|cbn; lia]).
    replace (Z.of_nat (llen x) - 1)%Z with (Z.of_nat (llen x - 1)) in E1 by lia. eapply csvd_r_left; [exact HC|exact H|exact Hre|apply HW| |exact E1]. lia. }
  destruct o1; injection E as <- _; exact HP.
Qed.
Lemma compress_l_left l r rank relerr x y o : chain_ok (lts x) l r -> cform_wk x -> relerr_ok relerr -> compress_svd_l_call svd svdfunc rank relerr x = (y, o) -> projected (relerr_exact relerr /\ Forall (fun k => k <= rank) (ranks x)) l r x y.
Proof.
  intros HC HW Hre E. unfold compress_svd_l_call in E. rewrite cbind_assert in E. destruct (Nat.ltb_spec 0 rank) as [H|_]; [|injection E as <- _; apply projected_refl; exact HC].
  rewrite cbind_eval in E. unfold cbind in E. destruct (cgen _ _ x) as [z o1] eqn:E1.
  assert (HP : projected (relerr_exact relerr /\ Forall (fun k => k <= rank) (ranks x)) l r x z) by (eapply csvd_l_left; [exact HC|exact H|exact Hre|apply HW|exact E1]).
  destruct o1; injection E as <- _; exact HP.
Qed.
(** Whatever the outcome. *)
Theorem compress_left l r rank relerr dir canon x y o : chain_ok (lts x) l r -> cform_wk x -> relerr_ok relerr ->
  compress_svd_call qr svd svdfunc rank relerr dir canon x = (y, o) -> projected (relerr_exact relerr /\ ranks_le rank x) l r x y.
Proof.
  intros HC HW Hre E. unfold compress_svd_call in E. rewrite cbind_eval in E. destruct (Nat.eqb (llen x) 1); [apply kept_projected1; eapply norm_left; eassumption|].
  rewrite cbind_eval in E. destruct (canonical_form x) as [ln rn]. rewrite cbind_eval in E. cbv beta in E. destruct (match rank with Some r => Ok r | None => max_rank x end) as [rk|e] eqn:ER; [|injection E as <- _; apply projected_refl; exact HC].
  assert (HE : relerr_exact relerr /\ ranks_le rank x -> forall x1, sim l r x x1 -> relerr_exact relerr /\ Forall (fun k => k <= rk) (ranks x1)).
  { intros [Hx Hle] x1 S. split; [exact Hx|]. eapply Forall2_le_bound; [apply S|]. destruct rank as [k|]; [injection ER as <-; exact Hle|]. unfold max_rank in ER. destruct (ranks x) as [|q qs]; [discriminate|]. injection ER as <-. clear. induction qs as [|j qs IH]; [constructor; [auto|constructor]|]. cbn [fold_right]. inversion IH as [|? ? J1 J2]; subst. constructor; [lia|]. constructor; [lia|]. eapply Forall_impl; [|exact J2]. cbn beta. intros; lia. }
  assert (G : forall a b (g : call K), (forall x1, chain_ok (lts x1) l r -> cform_wk x1 -> g x1 = (y, o) -> projected (relerr_exact relerr /\ Forall (fun k => k <= rk) (ranks x1)) l r x1 y) ->
    cbind (if canon then canonicalize_call qr a b else creturn tt) (fun _ => g) x = (y, o) -> projected (relerr_exact relerr /\ ranks_le rank x) l r x y).
  { intros a b g Hg Eg. unfold cbind in Eg. destruct canon; [|eapply kept_projected; [intros H; apply (HE H x), sim_refl, HC|apply kept_refl; exact HC|exact (Hg x HC HW Eg)]]. destruct (canonicalize_call qr a b x) as [x1 o1] eqn:E1.
    pose proof (canonicalize_left qr Hqr l r _ _ _ _ _ HC HW E1) as HK. destruct o1 as [u|e]; [|injection Eg as <- _; apply kept_projected1; exact HK].
    eapply kept_projected; [intros H; apply (HE H x1), HK|exact HK|]. destruct HK as (S & W & _). apply (Hg x1); [apply S|apply W; exact HW|exact Eg]. }
  destruct (match dir with DNone => _ | d => d end); try (injection E as <- _; apply projected_refl; exact HC).
  - eapply G; [|exact E]. intros x1 C1 W1 E1. eapply compress_l_left; eassumption.
  - eapply G; [|exact E]. intros x1 C1 W1 E1. eapply compress_r_left; eassumption.
Qed.
(** Arguments are checked before any truncation. *)
Theorem compress_args l r rank relerr dir canon x y e : chain_ok (lts x) l r -> cform_wk x -> relerr_ok relerr -> (llen x = 1 -> cform_ok x /\ canon_true x) ->
  compress_svd_call qr svd svdfunc rank relerr dir canon x = (y, Err e) -> e <> LinAlgError ->
  kept l r x y /\ (dir = DOther -> y = x) /\ (e = ValueError /\ dir = DOther \/ e = AssertionError /\ rank = Some 0).
Proof.
  intros HC HW Hre H1 E He.
  assert (EQ : compress_svd qr svd svdfunc x rank relerr dir canon = Err e) by (rewrite <- compress_svd_call_eq, E; reflexivity).
  assert (Hd : dir = DOther \/ dir <> DOther) by (destruct dir; (left; reflexivity) || (right; discriminate)).
  assert (Hr : rank = Some 0 \/ rank_pos rank) by (destruct rank as [[|k]|]; [left; reflexivity|right; cbn; lia|right; exact I]).
  assert (HN : llen x <> 1).
  { intros L. unfold compress_svd_call in E. rewrite cbind_eval in E. rewrite L in E. cbn [Nat.eqb] in E.
    destruct (H1 L) as [HO HT]. destruct (norm_spec qr Hqr l r x HC HO HT) as [([v z] & Ez & _)|[Ez _]]; pose proof (norm_sq_call_eq x) as EN; rewrite E, Ez in EN; unfold outcome in EN; cbn [fst snd bind] in EN; congruence. }
  unfold compress_svd_call in E. rewrite cbind_eval in E. destruct (Nat.eqb_spec (llen x) 1); [contradiction|].
  rewrite cbind_eval in E. destruct (canonical_form x) as [ln rn] eqn:EC. rewrite cbind_eval in E. cbv beta in E.
  assert (Hn : 2 <= llen x) by (destruct HC as [Hne _]; unfold llen in *; destruct (lts x) as [|t [|u ts]]; cbn in *; [congruence|lia|lia]).
  destruct (max_rank_spec x l r HC Hn) as [mk [Em _]].
  destruct Hd as [->|Hd].
  { destruct (match rank with Some r => Ok r | None => max_rank x end) as [rk|e'] eqn:ER; [|destruct rank; congruence].
    injection E as <- <-. split; [apply kept_refl; exact HC|]. split; [reflexivity|]. left. split; reflexivity. }
  destruct Hr as [->|Hr].
  2: { destruct (compress_svd_spec svd svdfunc Hsvd Hts qr Hqr l r x rank relerr dir canon HC HW H1 Hr Hre Hd) as [(z & Ez & _)|[Ez _]]; rewrite Ez in EQ; congruence. }
  assert (G : forall a b (g : call K), (forall x1, g x1 = (x1, Err AssertionError)) -> (forall u v, canonicalize_call qr a b x = (u, Err v) -> v = LinAlgError) ->
    cbind (if canon then canonicalize_call qr a b else creturn tt) (fun _ => g) x = (y, Err e) -> kept l r x y /\ e = AssertionError).
  { intros a b g Hg Ha Eg. unfold cbind in Eg. destruct canon; [|unfold creturn in Eg; rewrite Hg in Eg; injection Eg as <- <-; split; [apply kept_refl; exact HC|reflexivity]].
    destruct (canonicalize_call qr a b x) as [x1 o1] eqn:E1. pose proof (canonicalize_left qr Hqr l r _ _ _ _ _ HC HW E1) as HK.
    destruct o1 as [u|v]; [rewrite Hg in Eg; injection Eg as <- <-; split; [exact HK|reflexivity]|]. injection Eg as _ <-. exfalso. apply He. eapply Ha. reflexivity. }
  cbv iota in E. assert (GG : kept l r x y /\ e = AssertionError).
  { destruct dir; try congruence.
    - destruct (ln <? Z.of_nat (llen x) - rn)%Z; (eapply G; [| |exact E]; [intros; reflexivity|]); intros u v EV.
      + pose proof (canonicalize_call_eq qr (CAInt (Z.of_nat (llen x) - 1)) CANone x) as EE. rewrite EV in EE. unfold oc in EE. cbn [fst snd] in EE.
        destruct (canon_ln qr Hqr l r x HC HW Hn) as [(z & Ez & _)|[Ez _]]; rewrite Ez in EE; congruence.
      + pose proof (canonicalize_call_eq qr CANone (CAInt 1) x) as EE. rewrite EV in EE. unfold oc in EE. cbn [fst snd] in EE.
        destruct (canon_r1 qr Hqr l r x HC HW Hn) as [(z & Ez & _)|[Ez _]]; rewrite Ez in EE; congruence.
    - eapply G; [| |exact E]; [intros; reflexivity|]. intros u v EV.
      pose proof (canonicalize_call_eq qr (CAInt (Z.of_nat (llen x) - 1)) CANone x) as EE. rewrite EV in EE. unfold oc in EE. cbn [fst snd] in EE.
      destruct (canon_ln qr Hqr l r x HC HW Hn) as [(z & Ez & _)|[Ez _]]; rewrite Ez in EE; congruence.
    - eapply G; [| |exact E]; [intros; reflexivity|]. intros u v EV.
      pose proof (canonicalize_call_eq qr CANone (CAInt 1) x) as EE. rewrite EV in EE. unfold oc in EE. cbn [fst snd] in EE.
      destruct (canon_r1 qr Hqr l r x HC HW Hn) as [(z & Ez & _)|[Ez _]]; rewrite Ez in EE; congruence. }
  destruct GG as [GK ->]. split; [exact GK|]. split; [intros ->; contradiction|]. right. split; reflexivity.
Qed.
End QR.
End SVD.

Section Singularvals.
Variable qr : nd K -> res (nd K * nd K).
Variable svd : nd K -> res (nd K * list K * nd K).
Theorem singularvals_call_eq x : outcome (singularvals_call qr svd x) = (do p <- singularvals qr svd x; Ok (snd p, fst p)).
Proof.
  unfold singularvals_call, singularvals. rewrite cbind_eval. destruct (Nat.eqb (llen x) 1); [reflexivity|]. erewrite run_canon; [|intros y; reflexivity].
  destruct (canonicalize qr x CANone (CAInt 1)) as [z|e]; [|reflexivity]. cbn [bind]. rewrite cbind_eval. destruct (max_rank z) as [rk|e]; [|reflexivity]. cbn [bind].
  rewrite cbind_assert. destruct (Nat.ltb 0 rk); [|reflexivity]. cbn [passert]. unfold cbind at 1. destruct (cgen _ _ z) as [y o] eqn:E.
  destruct (cgen_csvd _ _ (csvd_r_call_eq svd (truncated_svd svd) rk None) _ _ _ _ E) as [(ys & -> & H)|(e & k & ys & -> & H & _)]; rewrite H; cbn [bind fst snd]; [|reflexivity].
  rewrite cbind_eval. destruct (csvd_r_factor svd (truncated_svd svd) rk None y _) as [[[[[t u] s] v] k]|e]; reflexivity.
Qed.
Hypothesis Hqr : qr_sound qr.
Hypothesis Hsvd : svd_sound svd.
Theorem singularvals_left l r x y o : chain_ok (lts x) l r -> cform_wk x -> singularvals_call qr svd x = (y, o) -> projected True l r x y.
Proof.
  intros HC HW E. unfold singularvals_call in E. rewrite cbind_eval in E. destruct (Nat.eqb_spec (llen x) 1) as [L|L]; [injection E as <- _; apply projected_refl; exact HC|].
  assert (Hn : 2 <= llen x) by (destruct HC as [Hne _]; unfold llen in *; destruct (lts x) as [|t [|u ts]]; cbn in *; [congruence|lia|lia]).
  unfold cbind at 1 in E. destruct (canonicalize_call qr CANone (CAInt 1) x) as [x1 o1] eqn:E1. pose proof (canonicalize_left qr Hqr l r _ _ _ _ _ HC HW E1) as HK.
  destruct o1 as [u|e]; [|injection E as <- _; apply kept_projected1; exact HK]. destruct HK as (S & W & C). pose proof (sim_len _ _ _ _ S) as Len.
  destruct (max_rank_spec x1 l r (proj1 S) ltac:(lia)) as (mk & Em & Mp & Mf & _). rewrite cbind_eval, Em, cbind_assert in E. destruct (Nat.ltb_spec 0 mk); [|lia].
  unfold cbind at 1 in E. destruct (cgen _ _ x1) as [z o2] eqn:E2.
  assert (HP : projected (relerr_exact (K := K) None /\ Forall (fun k => k <= mk) (ranks x1)) l r x1 z).
  { replace (Z.of_nat (llen x) - 2)%Z with (Z.of_nat (llen x - 2)) in E2 by lia.
    eapply (csvd_r_left svd (truncated_svd svd) Hsvd (truncated_svd_sound svd Hsvd) l r mk None (llen x - 2)); [apply S|exact Mp|exact I|apply (W HW)|lia|exact E2]. }
  assert (EZ : y = z) by (destruct o2 as [ys|e]; [|injection E as <- _; reflexivity]; rewrite cbind_eval in E; destruct (csvd_r_factor svd (truncated_svd svd) mk None z _) as [[[[[t w] s] v] k]|e]; injection E as <- _; reflexivity).
  subst z. eapply kept_projected; [|split; [exact S|split; [exact W|exact C]]|exact HP]. intros _. split; [exact I|exact Mf].
Qed.
End Singularvals.
End ObjState2.
