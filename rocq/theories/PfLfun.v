(** Values and variances of linear functions of outcomes: [lfun] and [est_lfun]. *)
From Coq Require Import Reals Lra.
From Verif Require Export PfEstim.
Open Scope nat_scope.

(** ** Linear functionals of functions of outcomes *)
Definition linear (L : ofun -> R) : Prop :=
  (forall f g : ofun, (forall r, f r = g r) -> L f = L g) /\ (forall a (f g : ofun), L (fun r => a * f r + g r)%R = (a * L f + L g)%R).
Lemma linear_0 L : linear L -> L (fun _ => 0%R) = 0%R.
Proof. intros [E A]. specialize (A 1%R (fun _ => 0%R) (fun _ => 0%R)). cbv beta in A. rewrite (E (fun r => 1 * 0 + 0)%R (fun _ => 0%R)) in A by (intros; lra). lra. Qed.
(** The linear combination of functions *)
Definition lin (c : list R) (fs : list ofun) : ofun := fun r => rsum (map (fun p => fst p * snd p r)%R (combine c fs)).
Definition comb (c l : list R) : R := rsum (map (fun p => fst p * snd p)%R (combine c l)).
Lemma comb_linear L : linear L -> forall c fs, comb c (map L fs) = L (lin c fs).
Proof.
  intros HL. pose proof (linear_0 L HL) as L0. destruct HL as [E A]. induction c as [|a c IH]; intros fs.
  - unfold comb, lin. cbn. symmetry. exact L0.
  - destruct fs as [|f fs]; [unfold comb, lin; cbn; symmetry; exact L0|]. unfold comb in *. cbn [combine map fst snd rsum fold_right].
    fold (rsum (map (fun p => fst p * snd p)%R (combine c (map L fs)))). rewrite IH. unfold lin at 2. cbn [combine map fst snd rsum fold_right]. symmetry. exact (A a f (lin c fs)).
Qed.
Definition SW (w : list R) (rows : list (list Z)) : ofun -> R := fun h => rsum (map (fun p => h (snd p) * fst p)%R (combine w rows)).
Lemma SW_linear w rows : linear (SW w rows).
Proof.
  split.
  - intros f g H. unfold SW. f_equal. apply map_ext. intros p. rewrite H. reflexivity.
  - intros a f g. unfold SW. rewrite <- rsum_scale, map_map, <- rsum_map_add. f_equal. apply map_ext. intros p. ring.
Qed.
Lemma SW_nonneg w rows h : Forall (fun v => (0 <= v)%R) w -> (forall r, (0 <= h r)%R) -> (0 <= SW w rows h)%R.
Proof.
  intros Hw Hh. unfold SW. apply rsum_nonneg. intros v Hv. apply in_map_iff in Hv. destruct Hv as ([a r] & <- & Hp). apply in_combine_l in Hp. cbn [fst snd].
  apply Rmult_le_pos; [apply Hh|exact (proj1 (Forall_forall _ _) Hw a Hp)].
Qed.
Lemma SW_one w rows : length w = length rows -> SW w rows (fun _ => 1%R) = rsum w.
Proof.
  revert rows. induction w as [|a w IH]; intros [|r rows] L; try discriminate; [reflexivity|]. unfold SW in *. cbn [combine map rsum fold_right fst snd].
  fold (rsum (map (fun p : R * list Z => (1 * fst p)%R) (combine w rows))). rewrite IH by (cbn in L; lia). fold (rsum w). ring.
Qed.
(** Covariance of two functions and variance, for weights of total [W] *)
Definition covS (S : ofun -> R) (W : R) (f g : ofun) : R := (S (fun r => f r * g r) / W - S f / W * (S g / W))%R.
Lemma covS_linear_r S W f : linear S -> linear (covS S W f).
Proof.
  intros [E A]. split.
  - intros g h H. unfold covS. rewrite (E g h H), (E (fun r => f r * g r)%R (fun r => f r * h r)%R) by (intros; rewrite H; reflexivity). reflexivity.
  - intros a g h. unfold covS. rewrite A. rewrite (E (fun r => f r * (a * g r + h r))%R (fun r => a * (f r * g r) + f r * h r)%R) by (intros; ring). rewrite (A a (fun r => f r * g r)%R (fun r => f r * h r)%R). unfold Rdiv. ring.
Qed.
Lemma covS_sym S W f g : linear S -> covS S W f g = covS S W g f.
Proof. intros [E A]. unfold covS. rewrite (E (fun r => f r * g r)%R (fun r => g r * f r)%R) by (intros; ring). ring. Qed.
Lemma covS_linear_l S W g : linear S -> linear (fun f => covS S W f g).
Proof.
  intros HS. destruct (covS_linear_r S W g HS) as [E A]. split.
  - intros f h H. rewrite !(covS_sym S W _ g) by exact HS. apply E. exact H.
  - intros a f h. rewrite !(covS_sym S W _ g) by exact HS. apply A.
Qed.
Lemma linear_scale L b : linear L -> linear (fun f => L f * b)%R.
Proof. intros [E A]. split; [intros f g H; rewrite (E f g H); reflexivity|]. intros a f g. rewrite A. ring. Qed.
Lemma comb_cov S W b c fs : linear S -> comb c (map (fun f => comb c (map (fun g => covS S W f g * b)%R fs)) fs) = (covS S W (lin c fs) (lin c fs) * b)%R.
Proof.
  intros HS. rewrite (map_ext (fun f => comb c (map (fun g => covS S W f g * b)%R fs)) (fun f => covS S W f (lin c fs) * b)%R).
  - apply (comb_linear (fun f => covS S W f (lin c fs) * b)%R). apply (linear_scale (fun f => covS S W f (lin c fs))). apply covS_linear_l. exact HS.
  - intros f. apply (comb_linear (fun g => covS S W f g * b)%R). apply (linear_scale (covS S W f)). apply covS_linear_r. exact HS.
Qed.
(** A variance is the mean square deviation from the mean. *)
Lemma covS_square S W f : linear S -> S (fun _ => 1%R) = W -> W <> 0%R -> covS S W f f = (S (fun r => (f r - S f / W) * (f r - S f / W)) / W)%R.
Proof.
  intros [E A] H1 HW. set (m := (S f / W)%R).
  rewrite (E (fun r => (f r - m) * (f r - m))%R (fun r => (- 2 * m) * f r + (1 * (f r * f r) + (m * m * 1)))%R) by (intros; ring).
  rewrite (A (-2 * m)%R f (fun r => 1 * (f r * f r) + m * m * 1)%R). rewrite (A 1%R (fun r => f r * f r)%R (fun r => m * m * 1)%R).
  rewrite (E (fun r => m * m * 1)%R (fun r => m * m * 1 + 0)%R) by (intros; ring). rewrite (A (m * m)%R (fun _ => 1%R) (fun _ => 0%R)), H1, (linear_0 S (conj E A)). unfold covS. fold m. unfold m. field. exact HW.
Qed.
Lemma covS_nonneg w rows f : length w = length rows -> Forall (fun v => (0 <= v)%R) w -> (0 < rsum w)%R -> (0 <= covS (SW w rows) (rsum w) f f)%R.
Proof.
  intros L Hw HW. rewrite covS_square; [|apply SW_linear|apply SW_one; exact L|lra]. apply Rmult_le_pos; [|left; apply Rinv_0_lt_compat; exact HW].
  apply SW_nonneg; [exact Hw|]. intros r. apply Rle_0_sqr.
Qed.

(** ** [est_lfun] in terms of the sums of the functions *)
Definition ecore (fs : list ofun) (S : ofun -> R) (W : R) (factor : flt) (coeff : option (list R)) (eps : R) : res lres :=
  let ept := map (fun f : ofun => fdiv (Fin (S f)) (Fin W)) fs in
  let cov := map (fun fe : ofun * flt => map (fun ge : ofun * flt =>
               fmul (fsub (fdiv (Fin (S (fun r => fst fe r * fst ge r)%R)) (Fin W)) (fmul (snd fe) (snd ge))) factor) (combine fs ept)) (combine fs ept) in
  match coeff with
  | None => Ok (LArr ept cov)
  | Some c =>
      let est := fsum (map (fun p => fmul (Fin (fst p)) (snd p)) (combine c ept)) in
      let var := fsum (map (fun p => fmul (Fin (fst p)) (fsum (map (fun q => fmul (snd q) (Fin (fst q))) (combine c (snd p))))) (combine c cov)) in
      passert (fge var (- eps)) (Ok (LVal est (if fneg0 var then Fin 0 else var)))
  end.
Lemma ecore_ext fs S S' W factor coeff eps : (forall h, S h = S' h) -> ecore fs S W factor coeff eps = ecore fs S' W factor coeff eps.
Proof.
  intros H. unfold ecore. assert (E : map (fun f : ofun => fdiv (Fin (S f)) (Fin W)) fs = map (fun f : ofun => fdiv (Fin (S' f)) (Fin W)) fs) by (apply map_ext; intros f; rewrite H; reflexivity).
  rewrite E. set (e := map _ fs). rewrite (map_ext (fun fe : ofun * flt => map (fun ge : ofun * flt => fmul (fsub (fdiv (Fin (S (fun r => fst fe r * fst ge r)%R)) (Fin W)) (fmul (snd fe) (snd ge))) factor) (combine fs e))
    (fun fe : ofun * flt => map (fun ge : ofun * flt => fmul (fsub (fdiv (Fin (S' (fun r => fst fe r * fst ge r)%R)) (Fin W)) (fmul (snd fe) (snd ge))) factor) (combine fs e))); [reflexivity|].
  intros fe. apply map_ext. intros ge. rewrite H. reflexivity.
Qed.
Lemma combine_map_r {A B : Type} (h : A -> B) l : combine l (map h l) = map (fun a => (a, h a)) l.
Proof. induction l as [|a l IH]; [reflexivity|]. cbn. rewrite IH. reflexivity. Qed.
Lemma fdiv_fin a b : b <> 0%R -> fdiv (Fin a) (Fin b) = Fin (a / b).
Proof. intros H. unfold fdiv. destruct (Req_EM_T b 0); [congruence|reflexivity]. Qed.
Lemma fsum_fin l : fsum (map Fin l) = Fin (rsum l).
Proof. induction l as [|a l IH]; [reflexivity|]. cbn [map fsum fold_right]. fold (fsum (map Fin l)). rewrite IH. reflexivity. Qed.
Lemma fcomb_l c l : fsum (map (fun p => fmul (Fin (fst p)) (snd p)) (combine c (map Fin l))) = Fin (comb c l).
Proof.
  unfold comb. rewrite <- fsum_fin. f_equal. rewrite map_map. revert l. induction c as [|a c IH]; intros [|b l]; try reflexivity. cbn [combine map fst snd fmul]. rewrite IH. reflexivity.
Qed.
Lemma fcomb_r c l : fsum (map (fun p => fmul (snd p) (Fin (fst p))) (combine c (map Fin l))) = Fin (comb c l).
Proof.
  unfold comb. rewrite <- fsum_fin. f_equal. rewrite map_map. revert l. induction c as [|a c IH]; intros [|b l]; try reflexivity. cbn [combine map fst snd fmul]. rewrite IH, Rmult_comm. reflexivity.
Qed.
Lemma combine_map_id {A B C : Type} (h : B -> C) (c : list A) : forall l, combine c (map h l) = map (fun p => (fst p, h (snd p))) (combine c l).
Proof. induction c as [|a c IH]; intros [|b l]; try reflexivity. cbn. rewrite IH. reflexivity. Qed.

Definition arr_res (fs : list ofun) (S : ofun -> R) (W b : R) : lres :=
  LArr (map (fun f => Fin (S f / W)) fs) (map (fun f => map (fun g => Fin (covS S W f g * b)) fs) fs).
Lemma ecore_fin fs S W b coeff eps : linear S -> W <> 0%R ->
  ecore fs S W (Fin b) coeff eps =
    match coeff with
    | None => Ok (arr_res fs S W b)
    | Some c => let v := (covS S W (lin c fs) (lin c fs) * b)%R in
        passert (Rleb (- eps) v) (Ok (LVal (Fin (S (lin c fs) / W)) (if Rleb 0 v then Fin v else Fin 0)))
    end.
Proof.
  intros HS HW. unfold ecore. rewrite (map_ext (fun f : ofun => fdiv (Fin (S f)) (Fin W)) (fun f => Fin (S f / W))) by (intros; apply fdiv_fin; exact HW).
  rewrite combine_map_r, map_map.
  rewrite (map_ext (fun x : ofun => map (fun ge : ofun * flt => fmul (fsub (fdiv (Fin (S (fun r => fst (x, Fin (S x / W)) r * fst ge r)%R)) (Fin W)) (fmul (snd (x, Fin (S x / W))) (snd ge))) (Fin b)) (map (fun a => (a, Fin (S a / W))) fs))
    (fun f => map Fin (map (fun g => covS S W f g * b)%R fs))).
  2:{ intros f. rewrite !map_map. apply map_ext. intros g. cbn [fst snd]. rewrite fdiv_fin by exact HW. reflexivity. }
  destruct coeff as [c|].
  - rewrite <- (map_map (fun f => (S f / W)%R) Fin), fcomb_l.
    rewrite (combine_map_id (fun f => map Fin (map (fun g => covS S W f g * b)%R fs)) c fs), map_map.
    rewrite (map_ext (fun x : R * ofun => fmul (Fin (fst (fst x, map Fin (map (fun g => covS S W (snd x) g * b)%R fs)))) (fsum (map (fun q => fmul (snd q) (Fin (fst q))) (combine c (snd (fst x, map Fin (map (fun g => covS S W (snd x) g * b)%R fs)))))))
      (fun x => Fin (fst x * comb c (map (fun g => covS S W (snd x) g * b)%R fs)))) by (intros x; cbn [fst snd]; rewrite fcomb_r; reflexivity).
    rewrite <- (map_map (fun x => (fst x * comb c (map (fun g => covS S W (snd x) g * b) fs))%R) Fin), fsum_fin.
    replace (rsum (map (fun x => (fst x * comb c (map (fun g => covS S W (snd x) g * b) fs))%R) (combine c fs))) with (covS S W (lin c fs) (lin c fs) * b)%R.
    2:{ rewrite <- comb_cov by exact HS. unfold comb at 1. rewrite combine_map_id, map_map. reflexivity. }
    assert (HL : linear (fun f => S f / W)%R) by (apply (linear_scale S (/ W)); exact HS). rewrite (comb_linear _ HL).
    cbv zeta. cbn [fge fneg0]. destruct (Rleb 0 (covS S W (lin c fs) (lin c fs) * b)); reflexivity.
  - unfold arr_res. f_equal. f_equal. apply map_ext. intros f. rewrite map_map. reflexivity.
Qed.

Definition coeff_ok (coeff : option (list R)) (fs : list ofun) : Prop := match coeff with None => True | Some c => length c = length fs end.
Definition weights_ok (weights : option (list R)) (rows : list (list Z)) : Prop :=
  match weights with None => True | Some w => length w = length rows /\ Forall (fun v => (0 <= v)%R) w end.
Definition wts (weights : option (list R)) (rows : list (list Z)) : list R := match weights with None => map (fun _ => 1%R) rows | Some w => w end.
Lemma wts_ok weights rows : weights_ok weights rows -> length (wts weights rows) = length rows /\ Forall (fun v => (0 <= v)%R) (wts weights rows).
Proof. destruct weights as [w|]; [intros H; exact H|]. intros _. cbn [wts]. split; [apply map_length|]. apply Forall_map. apply Forall_forall. intros r _. lra. Qed.
Definition factor_of (weights : option (list R)) (rows : list (list Z)) : res flt :=
  let W := rsum (wts weights rows) in
  match weights with
  | None => praise_unless (Nat.ltb 1 (length rows)) ZeroDivisionError (Ok (Fin (W / (W - 1) / W)))
  | Some _ => Ok (fdiv (fdiv (Fin W) (Fin (W - 1))) (Fin W))
  end.
Section EstLfun.
Context {K : StarRing}.
Variable x : ltens K.
Let ds := nsoutdims x.
Definition funs_of (ds : list nat) (funs : option (list ofun)) : list ofun := match funs with Some fs => fs | None => indicators ds end.
Lemma est_lfun_core coeff funs rows weights eps : ds <> [] \/ funs <> None -> coeff_ok coeff (funs_of ds funs) -> weights_ok weights rows ->
  est_lfun x coeff funs (S2 (length ds) rows) weights eps = bind (factor_of weights rows) (fun factor => ecore (funs_of ds funs) (SW (wts weights rows) rows) (rsum (wts weights rows)) factor coeff eps).
Proof.
  intros N Hc Hw. unfold est_lfun. fold ds.
  replace (match funs with Some fs => Ok fs | None => praise_unless (match ds with [] => false | _ => true end) TypeError (Ok (indicators ds)) end) with (Ok (funs_of ds funs)).
  2:{ destruct funs; [reflexivity|]. destruct N as [N|N]; [|congruence]. cbn [funs_of]. destruct ds; [congruence|reflexivity]. }
  cbn [bind]. set (fs := funs_of ds funs) in *. clearbody fs.
  replace (match coeff with None => true | Some c => Nat.eqb (length c) (length fs) end) with true by (destruct coeff; [cbn in Hc; rewrite Hc, Nat.eqb_refl|]; reflexivity).
  cbn [passert]. rewrite Nat.eqb_refl. cbn [passert].
  replace (match weights with None => true | Some w => Nat.eqb (length w) (length rows) && forallb (fun v => Rleb 0 v) w end) with true.
  2:{ destruct weights as [w|]; [|reflexivity]. destruct Hw as [L P]. rewrite L, Nat.eqb_refl. symmetry. apply forallb_forall. intros v Hv. apply Rleb_true. exact (proj1 (Forall_forall _ _) P v Hv). }
  cbn [passert]. fold (wts weights rows). cbv zeta. fold (factor_of weights rows).
  change (match weights with None => praise_unless (1 <? length rows) ZeroDivisionError (Ok (Fin (rsum (wts weights rows) / (rsum (wts weights rows) - 1) / rsum (wts weights rows)))) | Some _ => Ok (fdiv (fdiv (Fin (rsum (wts weights rows))) (Fin (rsum (wts weights rows) - 1))) (Fin (rsum (wts weights rows)))) end) with (factor_of weights rows).
  destruct (factor_of weights rows) as [factor|]; [|reflexivity]. cbn [bind]. set (w := wts weights rows). unfold ecore.
  change (map (fun f : ofun => fdiv (Fin (rsum (map (fun p => (f (snd p) * fst p)%R) (combine w rows)))) (Fin (rsum w))) fs) with (map (fun f : ofun => fdiv (Fin (SW w rows f)) (Fin (rsum w))) fs).
  set (e := map (fun f : ofun => fdiv (Fin (SW w rows f)) (Fin (rsum w))) fs).
  rewrite (map_ext (fun fe : ofun * flt => map (fun ge : ofun * flt => fmul (fsub (fdiv (Fin (rsum (map (fun p => fst fe (snd p) * (fst ge (snd p) * fst p))%R (combine w rows)))) (Fin (rsum w))) (fmul (snd fe) (snd ge))) factor) (combine fs e))
    (fun fe : ofun * flt => map (fun ge : ofun * flt => fmul (fsub (fdiv (Fin (SW w rows (fun r => fst fe r * fst ge r)%R)) (Fin (rsum w))) (fmul (snd fe) (snd ge))) factor) (combine fs e))); [reflexivity|].
  intros fe. apply map_ext. intros ge. unfold SW. do 4 f_equal. f_equal. apply map_ext. intros p. ring.
Qed.

(** Weighted mean and variance of the mean *)
Lemma factor_fin weights rows : weights_ok weights rows -> match weights with None => 1 < length rows | Some w => rsum w <> 0%R /\ rsum w <> 1%R end ->
  let W := rsum (wts weights rows) in W <> 0%R /\ W <> 1%R /\ factor_of weights rows = Ok (Fin (/ (W - 1))).
Proof.
  intros Hw H W. assert (A : W <> 0%R /\ W <> 1%R).
  { destruct weights as [w|]; [exact H|]. unfold W. cbn [wts]. replace (rsum (map (fun _ => 1%R) rows)) with (INR (length rows)).
    - apply lt_INR in H. change (INR 1) with 1%R in H. split; lra.
    - clear. induction rows as [|r rows IH]; [reflexivity|]. cbn [length map rsum fold_right]. fold (rsum (map (fun _ : list Z => 1%R) rows)). rewrite S_INR, IH. ring. }
  destruct A as [A1 A2]. split; [exact A1|]. split; [exact A2|]. unfold factor_of. fold W. destruct weights as [w|].
  - rewrite (fdiv_fin W (W - 1)) by lra. rewrite fdiv_fin by exact A1. do 2 f_equal. field. split; lra.
  - rewrite (proj2 (Nat.ltb_lt _ _) H). cbn [praise_unless]. do 2 f_equal. field. split; lra.
Qed.
Theorem est_lfun_spec coeff funs rows weights eps : ds <> [] \/ funs <> None -> coeff_ok coeff (funs_of ds funs) -> weights_ok weights rows -> (0 <= eps)%R ->
  match weights with None => 1 < length rows | Some w => (1 < rsum w)%R end ->
  let W := rsum (wts weights rows) in let S := SW (wts weights rows) rows in let fs := funs_of ds funs in
  est_lfun x coeff funs (S2 (length ds) rows) weights eps =
    Ok (match coeff with
        | None => arr_res fs S W (/ (W - 1))
        | Some c => LVal (Fin (S (lin c fs) / W)) (Fin (covS S W (lin c fs) (lin c fs) / (W - 1)))
        end) /\
  (1 < W)%R /\ forall f, (0 <= covS S W f f / (W - 1))%R.
Proof.
  intros N Hc Hw He Hn W S fs. destruct (wts_ok _ _ Hw) as [Lw Pw].
  destruct (factor_fin weights rows Hw) as (W0 & W1 & Ef); [destruct weights; [split; lra|exact Hn]|]. fold W in W0, W1, Ef.
  assert (WW : (1 < W)%R).
  { destruct weights as [w|]; [exact Hn|]. unfold W. cbn [wts]. replace (rsum (map (fun _ => 1%R) rows)) with (INR (length rows)); [apply lt_INR in Hn; exact Hn|].
    clear. induction rows as [|r rows IH]; [reflexivity|]. cbn [length map rsum fold_right]. fold (rsum (map (fun _ : list Z => 1%R) rows)). rewrite S_INR, IH. ring. }
  assert (V : forall f, (0 <= covS S W f f / (W - 1))%R).
  { intros f. apply Rmult_le_pos; [|left; apply Rinv_0_lt_compat; lra]. apply covS_nonneg; [exact Lw|exact Pw|fold W; lra]. }
  split; [|split; [exact WW|exact V]]. rewrite est_lfun_core by assumption. rewrite Ef. cbn [bind]. fold W S fs. rewrite ecore_fin by (try apply SW_linear; exact W0).
  destruct coeff as [c|]; [|reflexivity]. cbv zeta. specialize (V (lin c fs)). unfold Rdiv in V. rewrite (Rleb_true (- eps)) by lra. rewrite (Rleb_true 0) by exact V. reflexivity.
Qed.

(** Weights that are all one are no weights. *)
Theorem est_lfun_ones coeff funs rows eps : ds <> [] \/ funs <> None -> coeff_ok coeff (funs_of ds funs) -> 1 < length rows ->
  est_lfun x coeff funs (S2 (length ds) rows) (Some (repeat 1%R (length rows))) eps = est_lfun x coeff funs (S2 (length ds) rows) None eps.
Proof.
  intros N Hc Hn. assert (E : repeat 1%R (length rows) = map (fun _ => 1%R) rows) by (clear; induction rows as [|r rows IH]; [reflexivity|cbn; rewrite IH; reflexivity]).
  assert (Ww : weights_ok (Some (map (fun _ => 1%R) rows)) rows) by (apply (wts_ok None rows I)).
  rewrite E, !est_lfun_core by (try assumption; exact I).
  destruct (factor_fin None rows I Hn) as (W0 & W1 & E1). cbn [wts] in W0, W1, E1.
  destruct (factor_fin (Some (map (fun _ => 1%R) rows)) rows Ww (conj W0 W1)) as (_ & _ & E2). cbn [wts] in E2. rewrite E1, E2. reflexivity.
Qed.
(** Whole numbers as weights are repeated samples. *)
Definition repeated (ms : list nat) (rows : list (list Z)) : list (list Z) := concat (map (fun p => repeat (snd p) (fst p)) (combine ms rows)).
Lemma SW_repeated ms : forall rows h, SW (map INR ms) rows h = SW (map (fun _ => 1%R) (repeated ms rows)) (repeated ms rows) h.
Proof.
  assert (G : forall rows h, SW (map (fun _ => 1%R) rows) rows h = rsum (map h rows)).
  { intros rows h. unfold SW. induction rows as [|r rows IH]; [reflexivity|]. cbn [map combine rsum fold_right fst snd]. fold (rsum (map (fun p => (h (snd p) * fst p)%R) (combine (map (fun _ => 1%R) rows) rows))). rewrite IH. unfold rsum. ring. }
  intros rows h. rewrite G. revert rows. induction ms as [|m ms IH]; intros [|r rows]; try reflexivity.
  unfold repeated, SW in *. cbn [map combine rsum fold_right fst snd concat]. fold (rsum (map (fun p => (h (snd p) * fst p)%R) (combine (map INR ms) rows))).
  rewrite IH, map_app, rsum_app. f_equal. clear. induction m as [|m IH]; [cbn; ring|]. cbn [repeat map rsum fold_right]. fold (rsum (map h (repeat r m))). rewrite <- IH, S_INR. ring.
Qed.
Lemma rsum_ones {A : Type} (l : list A) : rsum (map (fun _ => 1%R) l) = INR (length l).
Proof. induction l as [|r l IH]; [reflexivity|]. cbn [length map rsum fold_right]. fold (rsum (map (fun _ : A => 1%R) l)). rewrite S_INR, IH. ring. Qed.
Lemma W_repeated ms rows : length ms = length rows -> rsum (map INR ms) = INR (length (repeated ms rows)).
Proof.
  intros L. rewrite <- (SW_one (map INR ms) rows) by (rewrite map_length; exact L). rewrite SW_repeated. rewrite SW_one by apply map_length. apply rsum_ones.
Qed.
Theorem est_lfun_repeat coeff funs ms rows eps : ds <> [] \/ funs <> None -> coeff_ok coeff (funs_of ds funs) -> length ms = length rows -> 1 < list_sum ms ->
  est_lfun x coeff funs (S2 (length ds) rows) (Some (map INR ms)) eps = est_lfun x coeff funs (S2 (length ds) (repeated ms rows)) None eps.
Proof.
  intros N Hc L Hn. assert (Ww : weights_ok (Some (map INR ms)) rows) by (split; [rewrite map_length; exact L|]; apply Forall_map, Forall_forall; intros m _; apply pos_INR).
  pose proof (W_repeated ms rows L) as EW. assert (Hn' : 1 < length (repeated ms rows)) by (apply INR_lt; rewrite <- EW, <- INR_sum; apply lt_INR; exact Hn).
  destruct (factor_fin None (repeated ms rows) I Hn') as (W0 & W1 & E1). cbn [wts] in W0, W1, E1. rewrite rsum_ones in W0, W1, E1.
  rewrite !est_lfun_core by (try assumption; exact I). rewrite E1. destruct (factor_fin (Some (map INR ms)) rows Ww) as (_ & _ & E2); [rewrite EW; split; assumption|]. cbn [wts] in E2.
  rewrite E2. cbn [bind wts]. rewrite rsum_ones, EW. apply ecore_ext. intros h. apply SW_repeated.
Qed.
(** Errors *)
Theorem est_lfun_few coeff funs rows eps : ds <> [] \/ funs <> None -> coeff_ok coeff (funs_of ds funs) -> length rows <= 1 ->
  est_lfun x coeff funs (S2 (length ds) rows) None eps = Err ZeroDivisionError.
Proof. intros N Hc H. rewrite est_lfun_core by (try assumption; exact I). unfold factor_of. rewrite (proj2 (Nat.ltb_ge _ _) H). reflexivity. Qed.
(** A total weight below one makes the variance negative. *)
Theorem est_lfun_light c funs rows w eps : ds <> [] \/ funs <> None -> length c = length (funs_of ds funs) -> length w = length rows -> Forall (fun v => (0 <= v)%R) w -> (0 < rsum w < 1)%R ->
  let S := SW w rows in let W := rsum w in let v := (covS S W (lin c (funs_of ds funs)) (lin c (funs_of ds funs)) / (1 - W))%R in
  (0 <= v)%R /\
  est_lfun x (Some c) funs (S2 (length ds) rows) (Some w) eps = if Rleb v eps then Ok (LVal (Fin (S (lin c (funs_of ds funs)) / W)) (Fin 0)) else Err AssertionError.
Proof.
  intros N Hc L P HW S W v. assert (Ww : weights_ok (Some w) rows) by (split; assumption). assert (Cc : coeff_ok (Some c) (funs_of ds funs)) by exact Hc.
  assert (C0 : (0 <= covS S W (lin c (funs_of ds funs)) (lin c (funs_of ds funs)))%R) by (apply covS_nonneg; [exact L|exact P|apply HW]).
  assert (V0 : (0 <= v)%R) by (apply Rmult_le_pos; [exact C0|left; apply Rinv_0_lt_compat; unfold W; lra]). split; [exact V0|].
  destruct (factor_fin (Some w) rows Ww) as (W0 & W1 & E2); [lra|]. cbn [wts] in W0, W1, E2. rewrite est_lfun_core by assumption. rewrite E2. cbn [bind wts]. rewrite ecore_fin by (try apply SW_linear; exact W0). cbv zeta. change (SW w rows) with S. change (rsum w) with W.
  assert (Ev : (covS S W (lin c (funs_of ds funs)) (lin c (funs_of ds funs)) * / (W - 1))%R = (- v)%R) by (unfold v; field; unfold W; lra). rewrite Ev.
  destruct (Rle_dec v eps) as [H|H].
  - rewrite (Rleb_true v eps H), (Rleb_true (- eps)) by lra. cbn [passert]. f_equal. f_equal. destruct (Rle_dec 0 (- v)) as [G|G]; [|rewrite Rleb_false by lra; reflexivity]. rewrite Rleb_true by exact G. f_equal. lra.
  - rewrite (Rleb_false v eps), (Rleb_false (- eps)) by lra. reflexivity.
Qed.
End EstLfun.
