(** [est_lfun] with total weight zero or one; the functions used by default. *)
From Verif Require Import Pmf PfEstim Estim PfLfun NdFacts.
From Coq Require Import Reals Lra Lia.
Open Scope nat_scope.

Theorem default_funs ds : length (funs_of ds None) = size ds /\
  forall k js, k < size ds -> inr js ds -> nth k (funs_of ds None) (fun _ => 0%R) (map Z.of_nat js) = if Nat.eqb (ravel ds js) k then 1%R else 0%R.
Proof.
  cbn [funs_of]. unfold indicators. rewrite map_length, seq_length. split; [reflexivity|]. intros k js Hk Hj.
  rewrite (nth_indep _ _ ((fun k row => if list_eq_dec Z.eq_dec row (zrow ds k) then 1%R else 0%R) 0)) by (rewrite map_length, seq_length; exact Hk).
  rewrite (map_nth (fun k row => if list_eq_dec Z.eq_dec row (zrow ds k) then 1%R else 0%R)), seq_nth by exact Hk. cbn [Nat.add].
  destruct (list_eq_dec Z.eq_dec (map Z.of_nat js) (zrow ds k)) as [E|E], (Nat.eqb_spec (ravel ds js) k) as [Q|Q]; try reflexivity; exfalso.
  - apply Q. unfold zrow in E. assert (js = unravel ds k) as ->; [|apply ravel_unravel; exact Hk]. revert E. generalize (unravel ds k). clear. induction js as [|j js IH]; intros [|i l] E; try discriminate; [reflexivity|]. cbn [map] in E. injection E as E1 E2. f_equal; [lia|apply IH; exact E2].
  - apply E. unfold zrow. rewrite <- Q, unravel_ravel by exact Hj. reflexivity.
Qed.

Lemma fsum_nan l : l <> [] -> Forall (fun a => a = NaN) l -> fsum l = NaN.
Proof. destruct l as [|a l]; [congruence|]. intros _ H. inversion H as [|? ? H1 H2]; subst. cbn. reflexivity. Qed.
Lemma fmul_nan_r a : fmul a NaN = NaN.
Proof. destruct a; reflexivity. Qed.
Lemma fmul_nan_l a : fmul NaN a = NaN.
Proof. destruct a; reflexivity. Qed.
Lemma rsum_zero_all w : Forall (fun v => (0 <= v)%R) w -> rsum w = 0%R -> Forall (fun v => v = 0%R) w.
Proof.
  induction 1 as [|v w Hv Hw IH]; [constructor|]. cbn [rsum fold_right]. fold (rsum w). intros E. assert (0 <= rsum w)%R by (clear - Hw; induction Hw; cbn [rsum fold_right]; [lra|fold (rsum l); lra]). constructor; [lra|apply IH; lra].
Qed.
Lemma SW_zero w rows f : Forall (fun v => v = 0%R) w -> SW w rows f = 0%R.
Proof. unfold SW. intros H. revert rows. induction H as [|v w -> _ IH]; intros [|r rows]; try reflexivity. cbn [combine map rsum fold_right fst snd]. unfold rsum in IH. rewrite IH. ring. Qed.
Lemma fdiv_00 : fdiv (Fin 0) (Fin 0) = NaN.
Proof. unfold fdiv, finf. destruct (Req_EM_T 0 0); [|congruence]. destruct (Req_EM_T 0 0) as [_|N]; [reflexivity|congruence] || (destruct (Rlt_dec 0 0); [lra|]; destruct (Rlt_dec 0 0); [lra|reflexivity]). Qed.

Section Nan.
Context {K : StarRing}.
Variable x : ltens K.
Let ds := nsoutdims x.
(** Nothing was measured: every mean and covariance is nan, and a linear combination is refused. *)
Theorem est_lfun_zero coeff funs rows w eps : ds <> [] \/ funs <> None -> coeff_ok coeff (funs_of ds funs) -> length w = length rows -> Forall (fun v => (0 <= v)%R) w -> rsum w = 0%R ->
  est_lfun x coeff funs (S2 (length ds) rows) (Some w) eps =
    match coeff with
    | None => Ok (LArr (map (fun _ => NaN) (funs_of ds funs)) (map (fun _ => map (fun _ => NaN) (funs_of ds funs)) (funs_of ds funs)))
    | Some [] => if Rleb (- eps) 0 then Ok (LVal (Fin 0) (Fin 0)) else Err AssertionError
    | Some _ => Err AssertionError
    end.
Proof.
  intros N Hc L P HW. change (length ds) with (length (nsoutdims x)). rewrite est_lfun_core by (assumption || (split; assumption)). pose proof (rsum_zero_all w P HW) as Z.
  unfold factor_of. cbn [wts bind]. rewrite HW. set (factor := fdiv _ _). clearbody factor. cbn [bind]. change (funs_of (nsoutdims x) funs) with (funs_of ds funs). set (fs := funs_of ds funs) in *. unfold ecore.
  rewrite (map_ext (fun f : ofun => fdiv (Fin (SW w rows f)) (Fin 0)) (fun _ => NaN)) by (intros f; rewrite (SW_zero w rows f Z); apply fdiv_00).
  rewrite combine_map_r, map_map.
  assert (EC : map (fun f : ofun => map (fun ge : ofun * flt => fmul (fsub (fdiv (Fin (SW w rows (fun r => fst (f, NaN) r * fst ge r)%R)) (Fin 0)) (fmul (snd (f, NaN)) (snd ge))) factor) (map (fun a => (a, NaN)) fs)) fs = map (fun _ => map (fun _ => NaN) fs) fs).
  { apply map_ext. intros f. rewrite map_map. apply map_ext. intros g. rewrite SW_zero by exact Z. rewrite fdiv_00. cbn [fst snd fmul]. apply fmul_nan_l. }
  rewrite EC. destruct coeff as [[|c0 c]|]; [| |reflexivity].
  - cbn [combine map fsum fold_right fge fneg0]. destruct (Rleb (- eps) 0); cbn [passert]; [|reflexivity]. destruct (Rleb 0 0); reflexivity.
  - cbn [coeff_ok] in Hc. destruct fs as [|f0 fs']; [discriminate|]. cbn [map combine fst snd].
    cbn. reflexivity.
Qed.
(** A total weight of one: the estimated variance is infinite, or nan (and refused) if the function is constant
    on the samples. *)
Theorem est_lfun_unit c f rows w eps : length w = length rows -> Forall (fun v => (0 <= v)%R) w -> rsum w = 1%R -> c <> 0%R ->
  let S := SW w rows in let v := (S (fun r => f r * f r)%R - S f * S f)%R in
  (0 <= v)%R /\
  est_lfun x (Some [c]) (Some [f]) (S2 (length ds) rows) (Some w) eps = if Req_EM_T v 0 then Err AssertionError else Ok (LVal (Fin (c * S f)) PInf).
Proof.
  intros L P HW Hc S v. assert (V0 : (0 <= v)%R).
  { pose proof (covS_nonneg w rows f L P ltac:(lra)) as H. unfold covS in H. rewrite HW in H. unfold v, S. lra. }
  split; [exact V0|]. change (length ds) with (length (nsoutdims x)). rewrite est_lfun_core by (try (right; discriminate); try reflexivity; split; assumption).
  unfold factor_of. cbn [wts bind funs_of]. rewrite HW. unfold ecore. change (SW w rows) with S. cbn [map combine fst snd].
  rewrite !fdiv_fin by lra. cbn [fmul fsub fneg fadd].
  assert (EF : fdiv (fdiv (Fin 1) (Fin (1 - 1))) (Fin 1) = PInf).
  { unfold fdiv at 2. destruct (Req_EM_T (1 - 1) 0) as [_|Q]; [|exfalso; apply Q; lra]. unfold finf. repeat (match goal with |- context[if ?b then _ else _] => destruct b; try lra end); cbn; try (destruct (Rlt_dec 1 0); [lra|reflexivity]). }
  rewrite EF.
  replace (S (fun r => (f r * f r)%R) / 1 + - (S f / 1 * (S f / 1)))%R with v by (unfold v; field).
  assert (EV : finf v = if Req_EM_T v 0 then NaN else PInf).
  { unfold finf. destruct (Req_EM_T v 0) as [Q|Q]; repeat (match goal with |- context[if ?b then _ else _] => destruct b end); try reflexivity; lra. }
  rewrite EV. destruct (Req_EM_T v 0) as [Q|Q]; [reflexivity|].
  assert (M1 : match fsum [fmul PInf (Fin c)] with Fin y => Fin (c * y) | PInf => finf c | NInf => finf (- c) | NaN => NaN end = PInf).
  { cbn [fsum fold_right fmul]. assert (FC : finf c = if Rlt_dec 0 c then PInf else NInf) by (unfold finf; destruct (Rlt_dec 0 c); [reflexivity|]; destruct (Rlt_dec c 0); [reflexivity|lra]). rewrite FC. destruct (Rlt_dec 0 c); cbn [fadd]; [reflexivity|]. unfold finf. destruct (Rlt_dec 0 (- c)); [reflexivity|lra]. }
  rewrite M1. cbn [fge fneg0 passert fsum fold_right fadd]. f_equal. f_equal. f_equal. field.
Qed.
End Nan.
