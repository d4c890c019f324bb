(** Proofs about utils/pmf.py. *)
From Coq Require Import Reals Lra Lia.
From Verif Require Export Pmf.
Open Scope nat_scope.

Lemma Rleb_spec x y : reflect (x <= y)%R (Rleb x y).
Proof. unfold Rleb. destruct (Rle_dec x y); constructor; assumption. Qed.
Lemma Rleb_true x y : (x <= y)%R -> Rleb x y = true.
Proof. intros H. destruct (Rleb_spec x y); [reflexivity|contradiction]. Qed.
Lemma Rleb_false x y : (y < x)%R -> Rleb x y = false.
Proof. intros H. destruct (Rleb_spec x y); [lra|reflexivity]. Qed.

(** What the values are, whatever their type *)
Definition imags (v : vals) : list R := match v with VReal a => map (fun _ => 0%R) (dat a) | VCplx a => map Cim (dat a) end.
Definition vshape (v : vals) : list nat := match v with VReal a => shp a | VCplx a => shp a end.
(** The argument after a successful call *)
Definition arg_after (v : vals) (out : nd RS) : vals := match v with VReal b => match shp b with [] => v | _ => VReal out end | VCplx _ => v end.

Lemma forallb_dec {A} (f : A -> bool) l : {forallb f l = true} + {forallb f l = false}.
Proof. destruct (forallb f l); auto. Qed.
Lemma forallb_false {A} (f : A -> bool) l : forallb f l = false <-> exists x, In x l /\ f x = false.
Proof.
  induction l as [|a l IH]; cbn; [split; [discriminate|intros (x & [] & _)]|]. destruct (f a) eqn:E; cbn.
  - rewrite IH. split; [intros (x & H1 & H2); eauto|intros (x & [<-|H1] & H2); [congruence|eauto]].
  - split; [eauto|reflexivity].
Qed.
Section P.
Variables (v : vals) (ie re tr : R).
Definition im_ok : Prop := forall y, In y (imags v) -> (Rabs y <= ie)%R.
Definition re_ok : Prop := forall x, In x (reals v) -> (- re <= x)%R.
Definition cut : list R := map (trunc tr) (reals v).
Lemma nonneg_ok : (0 <= ie)%R -> im_ok -> re_ok ->
  project_nonneg v ie re tr = Ok (mkNd (K:=RS) (vshape v) cut, arg_after v (mkNd (K:=RS) (vshape v) cut)).
Proof.
  intros Hi H1 H2. unfold project_nonneg, im_ok, re_ok, cut in *. destruct v as [a|a]; cbn [bind imags reals vshape arg_after] in *.
  - assert (E : forallb (fun x => Rleb (- re) x) (dat a) = true) by (apply forallb_forall; intros; apply Rleb_true; auto). rewrite E. reflexivity.
  - assert (E1 : forallb (fun z => Rleb (Rabs (Cim z)) ie) (dat a) = true) by (apply forallb_forall; intros; apply Rleb_true; apply H1; apply in_map; assumption). rewrite E1. cbn [passert bind].
    assert (E : forallb (fun x => Rleb (- re) x) (dat (re_part a)) = true) by (apply forallb_forall; intros; apply Rleb_true; apply H2; assumption). rewrite E. reflexivity.
Qed.
Lemma nonneg_err : ~ im_ok \/ ~ re_ok -> (0 <= ie)%R -> project_nonneg v ie re tr = Err AssertionError.
Proof.
  intros H Hi. unfold project_nonneg, im_ok, re_ok in *. destruct v as [a|a]; cbn [bind imags reals] in *.
  - destruct (forallb_dec (fun x => Rleb (- re) x) (dat a)) as [E|E]; rewrite E; [|reflexivity]. exfalso. rewrite forallb_forall in E. destruct H as [H|H]; apply H.
    + intros y Hy. apply in_map_iff in Hy. destruct Hy as (x & <- & _). rewrite Rabs_R0. exact Hi.
    + intros x Hx. specialize (E x Hx). destruct (Rleb_spec (- re) x); [assumption|discriminate].
  - destruct (forallb_dec (fun z => Rleb (Rabs (Cim z)) ie) (dat a)) as [E|E]; rewrite E; [|reflexivity]. cbn [passert bind re_part dat].
    destruct (forallb_dec (fun x => Rleb (- re) x) (map Cre (dat a))) as [E2|E2]; rewrite E2; [|reflexivity]. exfalso. rewrite forallb_forall in E, E2. destruct H as [H|H]; apply H.
    + intros y Hy. apply in_map_iff in Hy. destruct Hy as (z & <- & Hz). specialize (E z Hz). destruct (Rleb_spec (Rabs (Cim z)) ie); [assumption|discriminate].
    + intros x Hx. specialize (E2 x Hx). destruct (Rleb_spec (- re) x); [assumption|discriminate].
Qed.
Lemma cut_len : length cut = length (reals v).
Proof. apply map_length. Qed.
Lemma cut_nth i : nth i cut 0%R = trunc tr (nth i (reals v) 0%R) \/ length (reals v) <= i.
Proof.
  destruct (Nat.lt_ge_cases i (length (reals v))) as [L|L]; [left|right; exact L]. unfold cut. rewrite (nth_indep _ _ (trunc tr 0%R)) by (rewrite map_length; exact L). apply map_nth.
Qed.
Lemma cut_nonneg x : (0 <= tr)%R -> In x cut -> (0 <= x)%R.
Proof. intros Ht H. apply in_map_iff in H. destruct H as (y & <- & _). unfold trunc. destruct (Rleb_spec y tr); lra. Qed.
End P.
Lemma rsum_div l s : rsum (map (fun x => x / s)%R l) = (rsum l / s)%R.
Proof. induction l as [|x l IH]; cbn [map rsum fold_right]; [unfold Rdiv; ring|]. fold (rsum (map (fun x => x / s)%R l)). fold (rsum l). rewrite IH. unfold Rdiv. ring. Qed.
Lemma rsum_nonneg l : (forall x, In x l -> 0 <= x)%R -> (0 <= rsum l)%R.
Proof. induction l as [|x l IH]; intros H; cbn [rsum fold_right]; [lra|]. fold (rsum l). pose proof (H x (or_introl eq_refl)). assert (0 <= rsum l)%R by (apply IH; intros; apply H; right; assumption). lra. Qed.

Section Q.
Variables (v : vals) (ie re tr : R).
(** The single-value case that fails *)
Definition single_zero : Prop := vshape v = [] /\ forall x, In x (reals v) -> (x <= tr)%R.
Lemma single_zero_dec : {single_zero} + {~ single_zero}.
Proof.
  destruct (vshape v) eqn:E; [|right; intros [C _]; rewrite E in C; discriminate].
  destruct (forallb_dec (fun x => Rleb x tr) (reals v)) as [F|F].
  - left. split; [exact E|]. intros x Hx. rewrite forallb_forall in F. specialize (F x Hx). destruct (Rleb_spec x tr); [assumption|discriminate].
  - right. intros [_ C]. apply forallb_false in F. destruct F as (x & Hx & Hf). specialize (C x Hx). destruct (Rleb_spec x tr); [discriminate|contradiction].
Qed.
Definition normed : nd RS := mkNd (K:=RS) (vshape v) (map (fun x => x / rsum (cut v tr))%R (cut v tr)).
Lemma pmf_unfold : (0 <= ie)%R -> im_ok v ie -> re_ok v re -> ~ single_zero ->
  project_pmf v ie re tr = passert (Rleb (Rabs (rsum (cut v tr) - 1)) re) (Ok (normed, arg_after v normed)).
Proof.
  intros Hi H1 H2 Hs. unfold project_pmf. rewrite nonneg_ok by assumption. cbn [bind shp dat].
  set (g := match vshape v with [] => _ | _ => false end). assert (E : g = false).
  { unfold g. unfold single_zero in Hs. destruct (vshape v) eqn:Ev; [|reflexivity]. 
    apply forallb_false. destruct (forallb_dec (fun x => Rleb x tr) (reals v)) as [F|F]; [|apply forallb_false; exact F]. exfalso. apply Hs. split; [reflexivity|]. intros x Hx. rewrite forallb_forall in F. specialize (F x Hx). destruct (Rleb_spec x tr); [assumption|discriminate]. }
  rewrite E. cbn [negb praise_unless]. reflexivity.
Qed.
Lemma pmf_single : (0 <= ie)%R -> im_ok v ie -> re_ok v re -> single_zero -> project_pmf v ie re tr = Err AttributeError.
Proof.
  intros Hi H1 H2 [Hs1 Hs2]. unfold project_pmf. rewrite nonneg_ok by assumption. cbn [bind shp dat]. rewrite Hs1. 
  assert (E : forallb (fun x => Rleb x tr) (reals v) = true) by (apply forallb_forall; intros; apply Rleb_true; auto). rewrite E. reflexivity.
Qed.
Lemma pmf_err_values : (0 <= ie)%R -> ~ im_ok v ie \/ ~ re_ok v re -> project_pmf v ie re tr = Err AssertionError.
Proof. intros Hi H. unfold project_pmf. rewrite nonneg_err by assumption. reflexivity. Qed.
End Q.
Lemma im_ok_dec v ie : {im_ok v ie} + {~ im_ok v ie}.
Proof.
  destruct (forallb_dec (fun y => Rleb (Rabs y) ie) (imags v)) as [F|F]; [left|right].
  - intros y Hy. rewrite forallb_forall in F. specialize (F y Hy). destruct (Rleb_spec (Rabs y) ie); [assumption|discriminate].
  - intros C. apply forallb_false in F. destruct F as (y & Hy & E). specialize (C y Hy). destruct (Rleb_spec (Rabs y) ie); [discriminate|contradiction].
Qed.
Lemma re_ok_dec v re : {re_ok v re} + {~ re_ok v re}.
Proof.
  destruct (forallb_dec (fun y => Rleb (- re) y) (reals v)) as [F|F]; [left|right].
  - intros y Hy. rewrite forallb_forall in F. specialize (F y Hy). destruct (Rleb_spec (- re) y); [assumption|discriminate].
  - intros C. apply forallb_false in F. destruct F as (y & Hy & E). specialize (C y Hy). destruct (Rleb_spec (- re) y); [discriminate|contradiction].
Qed.

(** A probability array *)
Definition is_pmf (a : nd RS) : Prop := (forall x, In x (dat a) -> (0 <= x)%R) /\ rsum (dat a) = 1%R.
Theorem project_pmf_spec v ie re tr : (0 <= ie)%R -> (re < 1)%R -> (0 <= tr)%R ->
  (exists out after, project_pmf v ie re tr = Ok (out, after) /\ is_pmf out /\ shp out = vshape v /\ after = arg_after v out) \/
  project_pmf v ie re tr = Err AssertionError \/ project_pmf v ie re tr = Err AttributeError.
Proof.
  intros Hi He Ht. destruct (im_ok_dec v ie) as [H1|H1]; [|right; left; apply pmf_err_values; auto].
  destruct (re_ok_dec v re) as [H2|H2]; [|right; left; apply pmf_err_values; auto].
  destruct (single_zero_dec v tr) as [Hs|Hs]; [right; right; apply pmf_single; assumption|].
  rewrite pmf_unfold by assumption. destruct (Rleb_spec (Rabs (rsum (cut v tr) - 1)) re) as [L|L]; [left|right; left; reflexivity].
  exists (normed v tr), (arg_after v (normed v tr)). split; [reflexivity|].
  assert (S : (0 < rsum (cut v tr))%R). { unfold Rabs in L. destruct (Rcase_abs (rsum (cut v tr) - 1)); lra. }
  split; [|split; reflexivity]. split; cbn [normed dat].
  - intros x Hx. apply in_map_iff in Hx. destruct Hx as (y & <- & Hy). apply cut_nonneg in Hy; [|exact Ht]. unfold Rdiv. apply Rmult_le_pos; [exact Hy|]. apply Rlt_le, Rinv_0_lt_compat, S.
  - rewrite rsum_div. field. lra.
Qed.
(** Exactly when it succeeds, and with which values *)
Theorem project_pmf_iff v ie re tr : (0 <= ie)%R -> (re < 1)%R -> (0 <= tr)%R ->
  im_ok v ie -> re_ok v re -> ~ single_zero v tr -> (Rabs (rsum (cut v tr) - 1) <= re)%R ->
  exists out, project_pmf v ie re tr = Ok (out, arg_after v out) /\
    forall i, i < length (reals v) -> nth i (dat out) 0%R = ((if Rle_dec (nth i (reals v) 0%R) tr then 0 else nth i (reals v) 0%R) / rsum (cut v tr))%R.
Proof.
  intros Hi He Ht H1 H2 Hs L. exists (normed v tr). rewrite pmf_unfold, Rleb_true by assumption. split; [reflexivity|]. intros i Hl. cbn [normed dat].
  rewrite (nth_indep _ _ (0 / rsum (cut v tr))%R) by (rewrite map_length, cut_len; exact Hl). rewrite (map_nth (fun x => x / rsum (cut v tr))%R). f_equal.
  destruct (cut_nth v tr i) as [->|C]; [|lia]. unfold trunc, Rleb. destruct (Rle_dec (nth i (reals v) 0%R) tr); reflexivity.
Qed.
(** Probabilities are not changed. *)
Theorem project_pmf_id (a : nd RS) ie re : (0 <= ie)%R -> (0 <= re)%R -> is_pmf a -> shp a <> [] -> project_pmf (VReal a) ie re 0 = Ok (a, VReal a).
Proof.
  intros Hi He [Hp Hs] Hn. assert (C : cut (VReal a) 0 = dat a).
  { unfold cut. cbn [reals]. transitivity (map (fun x : R => x) (dat a)); [|apply map_id]. apply map_ext_in. intros x Hx. unfold trunc. destruct (Rleb_spec x 0) as [Q|Q]; [|reflexivity]. specialize (Hp x Hx). lra. }
  rewrite pmf_unfold; [|exact Hi| | |intros [Q _]; contradiction].
  - rewrite C, Hs. replace (1 - 1)%R with 0%R by ring. rewrite Rabs_R0, Rleb_true by exact He. cbn [passert].
    assert (N : normed (VReal a) 0 = a).
    { unfold normed. rewrite C, Hs. cbn [vshape]. destruct a as [s l]. cbn [shp dat]. f_equal. transitivity (map (fun x : R => x) l); [|apply map_id]. apply map_ext. intros x. field. }
    rewrite N. unfold arg_after. destruct (shp a); [congruence|reflexivity].
  - intros y Hy. apply in_map_iff in Hy. destruct Hy as (x & <- & _). rewrite Rabs_R0. exact Hi.
  - intros x Hx. specialize (Hp x Hx). lra.
Qed.
Theorem project_nonneg_spec v ie re tr : (0 <= ie)%R ->
  (im_ok v ie /\ re_ok v re /\ exists out, project_nonneg v ie re tr = Ok (out, arg_after v out) /\ shp out = vshape v /\ length (dat out) = length (reals v) /\
     (forall i, i < length (reals v) -> nth i (dat out) 0%R = if Rle_dec (nth i (reals v) 0%R) tr then 0%R else nth i (reals v) 0%R)) \/
  ((~ im_ok v ie \/ ~ re_ok v re) /\ project_nonneg v ie re tr = Err AssertionError).
Proof.
  intros Hi. destruct (im_ok_dec v ie) as [H1|H1]; [|right; split; [auto|apply nonneg_err; auto]]. destruct (re_ok_dec v re) as [H2|H2]; [|right; split; [auto|apply nonneg_err; auto]].
  left. split; [exact H1|]. split; [exact H2|]. eexists. split; [apply nonneg_ok; assumption|]. split; [reflexivity|]. split; [apply cut_len|]. intros i L. destruct (cut_nth v tr i) as [Ec|C]; [|lia]. etransitivity; [exact Ec|]. unfold trunc, Rleb. destruct (Rle_dec (nth i (reals v) 0%R) tr); reflexivity.
Qed.
