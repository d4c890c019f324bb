(** Means of random values. *)
From Coq Require Import Reals Lra.
From Verif Require Export Dist PfPmf.
Open Scope nat_scope.

Lemma rsum_app l m : rsum (l ++ m) = (rsum l + rsum m)%R.
Proof. unfold rsum. induction l as [|x l IH]; cbn; [lra|]. rewrite IH. lra. Qed.
Lemma rsum_cons x l : rsum (x :: l) = (x + rsum l)%R. Proof. reflexivity. Qed.
Lemma rsum_scale c l : rsum (map (fun x => c * x)%R l) = (c * rsum l)%R.
Proof. induction l as [|x l IH]; cbn [map]; rewrite ?rsum_cons, ?IH; [unfold rsum; cbn; lra|lra]. Qed.
Lemma rsum_map_add {A} (f h : A -> R) l : rsum (map (fun x => f x + h x)%R l) = (rsum (map f l) + rsum (map h l))%R.
Proof. induction l as [|x l IH]; cbn [map]; rewrite ?rsum_cons, ?IH; [unfold rsum; cbn; lra|lra]. Qed.

Section E.
Context {A B : Type}.
Lemma expct_ret (a : A) f : expct (dret a) f = f a.
Proof. unfold expct, dret. cbn. lra. Qed.
Lemma expct_bind (m : dist A) (k : A -> dist B) f : expct (dbind m k) f = expct m (fun a => expct (k a) f).
Proof.
  unfold expct, dbind. induction m as [|[a w] m IH]; [reflexivity|]. cbn [flat_map map]. rewrite map_app, rsum_app, IH, rsum_cons. f_equal.
  cbn [fst snd]. rewrite map_map, <- rsum_scale, map_map. f_equal. apply map_ext. intros [b v]. cbn. lra.
Qed.
Lemma expct_ext (m : dist A) f h : (forall a, f a = h a) -> expct m f = expct m h.
Proof. intros H. unfold expct. f_equal. apply map_ext. intros p. rewrite H. reflexivity. Qed.
Lemma expct_scale (m : dist A) c f : expct m (fun a => c * f a)%R = (c * expct m f)%R.
Proof. unfold expct. rewrite <- rsum_scale, map_map. f_equal. apply map_ext. intros p. lra. Qed.
Lemma expct_add (m : dist A) f h : expct m (fun a => f a + h a)%R = (expct m f + expct m h)%R.
Proof. unfold expct. rewrite <- rsum_map_add. f_equal. apply map_ext. intros p. lra. Qed.
End E.
Lemma expct_rdbind {A B} (m : rd A) (k : A -> rd B) f :
  expct (rdbind m k) f = expct m (fun r => match r with Ok a => expct (k a) f | Err e => f (Err e) end).
Proof. unfold rdbind. rewrite expct_bind. apply expct_ext. intros [a|e]; [reflexivity|]. apply expct_ret. Qed.

(** ** Sums of real numbers over index lists *)
Definition rmsum (ds : list nat) (f : list nat -> R) : R := msum (K:=RS) ds f.
Definition rbig (n : nat) (f : nat -> R) : R := bigsum (K:=RS) n f.
Lemma rbig_rsum n f : rbig n f = rsum (map f (seq 0 n)).
Proof.
  unfold rbig. induction n as [|n IH]; [reflexivity|]. rewrite seq_S, map_app, rsum_app, <- IH. cbn. unfold rsum. cbn. lra.
Qed.
Lemma rmsum_flat ds f : rmsum ds f = rbig (size ds) (fun k => f (unravel ds k)).
Proof. unfold rmsum, rbig. apply (msum_flat (K:=RS)). Qed.
Lemma rmsum_app a b f : rmsum (a ++ b) f = rmsum a (fun i => rmsum b (fun j => f (i ++ j))).
Proof. unfold rmsum. apply (msum_app (K:=RS)). Qed.
Lemma rmsum_ext ds f h : (forall i, inr i ds -> f i = h i) -> rmsum ds f = rmsum ds h.
Proof. intros H. unfold rmsum. apply (msum_ext (K:=RS)). exact H. Qed.
Lemma rmsum_scale ds c f : rmsum ds (fun i => c * f i)%R = (c * rmsum ds f)%R.
Proof. unfold rmsum. apply (msum_mul_l (K:=RS)). Qed.
Lemma rmsum_add ds f h : rmsum ds (fun i => f i + h i)%R = (rmsum ds f + rmsum ds h)%R.
Proof. unfold rmsum. apply (msum_add (K:=RS)). Qed.

Lemma rbig_nonneg n f : (forall k, k < n -> (0 <= f k)%R) -> (0 <= rbig n f)%R.
Proof.
  intros H. rewrite rbig_rsum. apply rsum_nonneg. intros x Hx. apply in_map_iff in Hx. destruct Hx as (k & <- & Hk). apply in_seq in Hk. apply H. lia.
Qed.
Lemma rbig_zero n f : (forall k, k < n -> (0 <= f k)%R) -> rbig n f = 0%R -> forall k, k < n -> f k = 0%R.
Proof.
  induction n as [|n IH]; intros H E k Hk; [lia|]. unfold rbig in E. cbn [bigsum] in E. fold (rbig n f) in E.
  change (rbig n f + f n = 0)%R in E.
  assert (A : (0 <= rbig n f)%R) by (apply rbig_nonneg; intros; apply H; lia). assert (B := H n ltac:(lia)).
  destruct (Nat.eq_dec k n) as [->|]; [lra|]. apply IH; [intros; apply H; lia|lra|lia].
Qed.
Lemma rmsum_nonneg ds f : (forall i, inr i ds -> 0 <= f i)%R -> (0 <= rmsum ds f)%R.
Proof. intros H. rewrite rmsum_flat. apply rbig_nonneg. intros k Hk. apply H. apply unravel_inr. exact Hk. Qed.
Lemma rmsum_zero ds f : (forall i, inr i ds -> 0 <= f i)%R -> rmsum ds f = 0%R -> forall i, inr i ds -> f i = 0%R.
Proof.
  intros H E i Hi. rewrite rmsum_flat in E. rewrite <- (unravel_ravel ds i Hi).
  refine (rbig_zero (size ds) (fun k => f (unravel ds k)) _ E _ _); [|apply ravel_lt; exact Hi].
  intros k Hk. apply H. apply unravel_inr. exact Hk.
Qed.
Lemma rmsum_le ds f h : (forall i, inr i ds -> f i <= h i)%R -> (rmsum ds f <= rmsum ds h)%R.
Proof.
  intros H. assert (A : (0 <= rmsum ds (fun i => h i + (-1) * f i))%R) by (apply rmsum_nonneg; intros i Hi; specialize (H i Hi); lra).
  rewrite rmsum_add, rmsum_scale in A. lra.
Qed.

(** ** Draws *)
Lemma choice_mean n p f : length p = n -> (forall x, In x p -> 0 <= x)%R -> rsum p = 1%R ->
  expct (rng_choice n p) f = rbig n (fun k => nth k p 0 * f (Ok k))%R.
Proof.
  intros L P S. unfold rng_choice. rewrite L, Nat.eqb_refl, S. rewrite Rleb_true by (replace (1 - 1)%R with 0%R by lra; rewrite Rabs_R0; left; apply Rinv_0_lt_compat; apply pow_lt; lra).
  replace (forallb (fun x => Rleb 0 x) p) with true by (symmetry; apply forallb_forall; intros x Hx; apply Rleb_true; apply P; exact Hx).
  cbn [andb]. unfold expct. rewrite map_map, rbig_rsum. f_equal. apply map_ext. intros k. cbn [fst snd]. field.
Qed.

(** A random index list that is drawn according to [p] and is never an exception *)
Definition follows (m : rd (list nat)) (ds : list nat) (p : list nat -> R) : Prop :=
  forall f, expct m f = rmsum ds (fun x => p x * f (Ok x))%R.
(** The mean of [f] over [n] independent draws according to [p] *)
Fixpoint iid (ds : list nat) (p : list nat -> R) (n : nat) (f : list (list nat) -> R) : R :=
  match n with
  | O => f []
  | S m => rmsum ds (fun x => p x * iid ds p m (fun xs => f (x :: xs)))%R
  end.
Lemma iid_ext ds p n : forall f h, (forall xs, length xs = n -> Forall (fun x => inr x ds) xs -> f xs = h xs) -> iid ds p n f = iid ds p n h.
Proof.
  induction n as [|n IH]; intros f h H; [apply H; [reflexivity|constructor]|]. cbn [iid]. apply rmsum_ext. intros x Hx. f_equal. apply IH.
  intros xs Hl Hv. apply H; [cbn; lia|constructor; assumption].
Qed.
Lemma iid_ext_p ds p q n : (forall x, inr x ds -> p x = q x) -> forall f, iid ds p n f = iid ds q n f.
Proof. intros H. induction n as [|n IH]; intros f; [reflexivity|]. cbn [iid]. apply rmsum_ext. intros x Hx. rewrite H, IH by exact Hx. reflexivity. Qed.
Lemma repeatD_mean m ds p n : follows m ds p -> forall f, expct (repeatD n m) f = iid ds p n (fun xs => f (Ok xs)).
Proof.
  intros H. induction n as [|n IH]; intros f; [cbn [repeatD iid]; apply (expct_ret (Ok []))|]. cbn [repeatD iid]. rewrite expct_rdbind, H. apply rmsum_ext. intros x Hx. f_equal.
  rewrite expct_rdbind, IH. apply iid_ext. intros xs _ _. apply expct_ret.
Qed.
(** The weight of one data set is the product of the probabilities. *)
Definition rprod (l : list R) : R := fold_right Rmult 1%R l.
Lemma rmsum_single ds k f : inr k ds -> (forall i, inr i ds -> i <> k -> f i = 0%R) -> rmsum ds f = f k.
Proof. intros Hk H. unfold rmsum. apply (msum_single (K:=RS)); assumption. Qed.
Definition rows_eq_dec : forall a b : list (list nat), {a = b} + {a <> b} := list_eq_dec (list_eq_dec Nat.eq_dec).
Lemma iid_point ds p n : forall xs, length xs = n -> Forall (fun x => inr x ds) xs ->
  iid ds p n (fun ys => if rows_eq_dec ys xs then 1 else 0)%R = rprod (map p xs).
Proof.
  induction n as [|n IH]; intros xs L V; destruct xs as [|x xs]; try discriminate.
  - cbn [iid]. destruct (rows_eq_dec [] []); [reflexivity|congruence].
  - cbn [iid map rprod fold_right]. inversion V; subst. rewrite (rmsum_single _ x).
    + f_equal. fold (rprod (map p xs)). rewrite <- (IH xs ltac:(cbn in L; lia) ltac:(assumption)). apply iid_ext. intros ys _ _.
      destruct (rows_eq_dec (x :: ys) (x :: xs)), (rows_eq_dec ys xs); congruence.
    + assumption.
    + intros i Hi Hn. rewrite (iid_ext _ _ _ _ (fun _ => 0%R)).
      2:{ intros ys _ _. destruct (rows_eq_dec (i :: ys) (x :: xs)); congruence. }
      clear. replace (iid ds p n (fun _ => 0%R)) with 0%R; [lra|]. induction n as [|n IH]; [reflexivity|]. cbn [iid]. rewrite <- IH. rewrite (rmsum_ext _ _ (fun _ => 0 * 0)%R) by (intros; lra). rewrite rmsum_scale. lra.
Qed.
Lemma iid_const ds p n : rmsum ds p = 1%R -> forall c, iid ds p n (fun _ => c) = c.
Proof.
  intros S. induction n as [|n IH]; intros c; [reflexivity|]. cbn [iid]. rewrite (rmsum_ext _ _ (fun x => c * p x)%R) by (intros; rewrite IH; lra). rewrite rmsum_scale, S. lra.
Qed.
Lemma iid_zero ds p n : forall f, (forall xs, f xs = 0%R) -> iid ds p n f = 0%R.
Proof.
  induction n as [|n IH]; intros f H; [apply H|]. cbn [iid]. rewrite (rmsum_ext _ _ (fun x => 0 * 0)%R) by (intros x _; rewrite IH by (intros; apply H); lra). rewrite (rmsum_scale ds 0%R (fun _ => 0%R)). lra.
Qed.
