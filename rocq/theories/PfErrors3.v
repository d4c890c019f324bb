(** Rejected arguments of traces, diagonals, embeddings and sums of lists; Python slices. *)
From Verif Require Import CanonSpec Chain Dense PfSum PfAdd PfDot PfDots PfInner PfEstim MpStruct MpArray PfBlock PfErrors PfErrors2.
From Coq Require Import Permutation Lia.
Open Scope nat_scope.

(** ** Slices *)
(** The [k]-th site that [s] selects from [n] sites is [p].  A negative bound counts from the end. *)
Definition from_end (n : nat) (z : Z) : Z := if (z <? 0)%Z then (z + Z.of_nat n)%Z else z.
Definition first_of (s : pyslc) (n : nat) (up : bool) : Z :=
  match s_start s with
  | None => if up then 0 else Z.of_nat n - 1
  | Some z => if up then Z.max 0 (from_end n z) else Z.min (Z.of_nat n - 1) (from_end n z)
  end.
Definition before_stop (s : pyslc) (n : nat) (up : bool) (p : Z) : Prop :=
  match s_stop s with None => True | Some z => if up then (p < from_end n z)%Z else (from_end n z < p)%Z end.
Definition selects (s : pyslc) (n k p : nat) : Prop :=
  let d := match s_step s with None => 1%Z | Some z => z end in let up := (0 <? d)%Z in
  Z.of_nat p = (first_of s n up + Z.of_nat k * d)%Z /\ p < n /\ before_stop s n up (Z.of_nat p).
Lemma slice_step0 s n : s_step s = Some 0%Z -> slice_indices s n = Err ValueError.
Proof. intros H. unfold slice_indices. rewrite H. reflexivity. Qed.
Lemma range_len_spec a b d k : (d <> 0)%Z -> k < range_len a b d <-> (if (0 <? d)%Z then a + Z.of_nat k * d < b else b < a + Z.of_nat k * d)%Z.
Proof.
  intros Hd. unfold range_len. destruct (Z.ltb_spec 0 d).
  - assert (E := Z.div_mod (b - a + d - 1) d ltac:(lia)). assert (M := Z.mod_pos_bound (b - a + d - 1) d ltac:(lia)). set (q := ((b - a + d - 1) / d)%Z) in *. split; intros Hk; [assert (Z.of_nat k + 1 <= q)%Z by lia; nia|].
    assert (Z.of_nat k + 1 <= q)%Z by nia. lia.
  - set (e := (- d)%Z) in *. assert (E := Z.div_mod (a - b - d - 1) e ltac:(lia)). assert (M := Z.mod_pos_bound (a - b - d - 1) e ltac:(lia)). set (q := ((a - b - d - 1) / e)%Z) in *. assert (De : d = (- e)%Z) by lia. split; intros Hk; [assert (Z.of_nat k + 1 <= q)%Z by lia; nia|].
    assert (Z.of_nat k + 1 <= q)%Z by nia. lia.
Qed.
Lemma slice_selects s n : s_step s <> Some 0%Z -> exists a b d, slice_indices s n = Ok (a, b, d) /\ (d <> 0)%Z /\
  (forall k, k < range_len a b d -> exists p, p < n /\ (a + Z.of_nat k * d)%Z = Z.of_nat p) /\
  (forall k p, selects s n k p <-> k < range_len a b d /\ Z.of_nat p = (a + Z.of_nat k * d)%Z).
Proof.
  intros Hs. unfold slice_indices. set (d := match s_step s with None => 1%Z | Some z => z end). assert (Hd : (d <> 0)%Z) by (unfold d; destruct (s_step s); congruence || lia).
  destruct (Z.eqb_spec d 0) as [E|_]; [contradiction|]. cbv zeta. do 3 eexists. split; [reflexivity|]. split; [exact Hd|].
  assert (HU : (0 <? d)%Z = negb (d <? 0)%Z) by (destruct (Z.ltb_spec 0 d), (Z.ltb_spec d 0); reflexivity || lia).
  set (up := (0 <? d)%Z) in *. 
  match goal with |- (forall k, k < range_len ?x ?y d -> _) /\ _ => set (a := x); set (b := y) end.
  assert (MZ : forall k, (0 <= Z.of_nat k)%Z) by (intros; lia).
  assert (R : forall k, k < range_len a b d <-> (if up then a + Z.of_nat k * d < b else b < a + Z.of_nat k * d)%Z) by (intros k; apply range_len_spec; exact Hd).
  assert (BD : if up then (0 <= a /\ b <= Z.of_nat n)%Z else (a <= Z.of_nat n - 1 /\ -1 <= b)%Z).
  { unfold a, b. destruct up; cbn [negb] in HU; rewrite (eq_sym (f_equal negb HU)) || idtac; destruct (Z.ltb_spec d 0); try discriminate; (destruct (s_start s) as [z|], (s_stop s) as [w|]; repeat match goal with |- context[(?u <? 0)%Z] => destruct (Z.ltb_spec u 0) end; lia). }
  assert (SG : if up then (0 < d)%Z else (d < 0)%Z) by (unfold up; destruct (Z.ltb_spec 0 d); lia).
  split.
  - intros k Hk. apply R in Hk. exists (Z.to_nat (a + Z.of_nat k * d)). destruct up; nia.
  - intros k p. rewrite R. unfold selects. fold d. fold up. cbv zeta.
    assert (A1 : forall q, (Z.of_nat q < Z.of_nat n)%Z -> (Z.of_nat q = a + Z.of_nat k * d -> Z.of_nat q = first_of s n up + Z.of_nat k * d)%Z).
    { intros q Hq Eq. rewrite Eq. f_equal. unfold a, first_of, from_end. destruct up; destruct (Z.ltb_spec d 0); try discriminate; destruct (s_start s) as [z|]; try reflexivity; destruct (Z.ltb_spec z 0); unfold a in Eq; destruct (Z.ltb_spec d 0); try discriminate; rewrite ?(proj2 (Z.ltb_lt _ _)) in Eq by lia; try (destruct (Z.ltb_spec z 0); try lia; nia). }
    assert (A2 : forall q, (Z.of_nat q < Z.of_nat n)%Z -> (Z.of_nat q = first_of s n up + Z.of_nat k * d -> Z.of_nat q = a + Z.of_nat k * d)%Z).
    { intros q Hq Eq. rewrite Eq. f_equal. revert Eq. unfold a, first_of, from_end. destruct up; destruct (Z.ltb_spec d 0); try discriminate; destruct (s_start s) as [z|]; try reflexivity; destruct (Z.ltb_spec z 0); intros Eq; nia. }
    assert (BS : forall q, (0 <= Z.of_nat q < Z.of_nat n)%Z -> (before_stop s n up (Z.of_nat q) <-> if up then Z.of_nat q < b else b < Z.of_nat q)%Z).
    { intros q Hq. unfold before_stop, b, from_end. destruct up; destruct (Z.ltb_spec d 0); try discriminate; destruct (s_stop s) as [z|]; try (destruct (Z.ltb_spec z 0)); lia. }
    split.
    + intros (H1 & H2 & H3). assert (E := A2 p ltac:(lia) H1). split; [|exact E]. apply BS in H3; [|lia]. rewrite <- E. exact H3.
    + intros [H1 H2]. assert (Hp : p < n) by (destruct up; nia). split; [apply A1; [lia|exact H2]|]. split; [exact Hp|]. apply BS; [lia|]. rewrite H2. exact H1.
Qed.

Section Errors3.
Context {K : StarRing}.
Add Ring Kr : (k_ring K).

Lemma update1_nth (x z : ltens K) p t f : lt_update1 x (Z.of_nat p) t f = Ok z -> lts z = set_nth p t (lts x) /\ p < llen x.
Proof.
  unfold lt_update1. unfold pyidx. destruct (Z.leb_spec 0 (Z.of_nat p)); [|lia]. destruct (Z.ltb_spec (Z.of_nat p) (Z.of_nat (llen x))); [|discriminate]. rewrite Nat2Z.id.
  intros E. split; [|lia]. destruct (_ && _); [|destruct (_ && _)]; injection E as <-; reflexivity.
Qed.
Lemma nth_error_set (l : list (nd K)) n t q : n < length l -> nth_error (set_nth n t l) q = if q =? n then Some t else nth_error l q.
Proof. revert n q. induction l as [|a l IH]; intros [|n] [|q] H; cbn [length] in H; try lia; try reflexivity. cbn. apply IH. lia. Qed.
Lemma update_loop_nth ts : forall (x z : ltens K) (pos : list nat) flags, lt_update_loop x ts (map Z.of_nat pos) flags = Ok z -> NoDup pos ->
  llen z = llen x /\ forall q, (forall k t f, nth_error pos k = Some q -> nth_error ts k = Some t -> nth_error flags k = Some f -> nth_error (lts z) q = Some t) /\
    ((forall k t f, nth_error pos k = Some q -> nth_error ts k = Some t -> nth_error flags k = Some f -> False) -> nth_error (lts z) q = nth_error (lts x) q).
Proof.
  induction ts as [|t ts IH]; intros x z pos flags E N.
  { cbn in E. injection E as <-. split; [reflexivity|]. intros q. split; [|reflexivity]. intros [|k] ? ? _ H; discriminate. }
  destruct pos as [|p pos]; [cbn in E; injection E as <-; split; [reflexivity|]; intros q; split; [|reflexivity]; intros [|k] ? ? H; discriminate|].
  destruct flags as [|f flags]; [cbn in E; injection E as <-; split; [reflexivity|]; intros q; split; [|reflexivity]; intros [|k] ? ? _ _ H; discriminate|].
  cbn [map lt_update_loop] in E. apply bind_inv in E. destruct E as (y & E1 & E2). apply update1_nth in E1. destruct E1 as [Ey Lp]. inversion N as [|? ? Np N']; subst. destruct (IH y z pos flags E2 N') as [L V].
  assert (Ly : llen y = llen x) by (unfold llen; rewrite Ey, set_nth_length; reflexivity). split; [congruence|]. intros q. destruct (V q) as [V1 V2]. split.
  - intros [|k] t' f' H1 H2 H3; cbn [nth_error] in H1, H2, H3; [|eapply V1; eassumption]. injection H1 as <-. injection H2 as <-. rewrite V2; [rewrite Ey, nth_error_set by exact Lp; rewrite Nat.eqb_refl; reflexivity|]. intros k t'' f'' Hk _ _. apply Np. eapply nth_error_In. exact Hk.
  - intros H. rewrite V2; [|intros k t' f' H1 H2 H3; apply (H (S k) t' f'); assumption]. rewrite Ey, nth_error_set by exact Lp. destruct (Nat.eqb_spec q p) as [->|]; [|reflexivity]. exfalso. apply (H 0 t f); reflexivity.
Qed.
(** [x.lt.update(s, ts, c)] for any slice that the code accepts. *)
Definition flags_of (n : nat) (c : canon_arg) : list (option string) :=
  match c with COne None => repeat None n | COne (Some str) => str_chars str | CSeq l => l end.
Theorem update_slice_sites (x z : ltens K) s ts c : lt_update_slice x s ts c = Ok z ->
  llen z = llen x /\ forall p, p < llen x ->
    (forall k t, selects s (llen x) k p -> nth_error ts k = Some t -> k < length (flags_of (length ts) c) -> nth_error (lts z) p = Some t) /\
    ((forall k, selects s (llen x) k p -> length ts <= k \/ length (flags_of (length ts) c) <= k) -> nth_error (lts z) p = nth_error (lts x) p).
Proof.
  intros E. unfold lt_update_slice in E. assert (Hs : s_step s <> Some 0%Z) by (intros H; rewrite (slice_step0 _ _ H) in E; discriminate).
  destruct (slice_selects s (llen x) Hs) as (a & b & d & EI & Hd & RI & SI). rewrite EI in E. cbn [bind] in E. repeat first [apply bind_inv in E; destruct E as (? & _ & E) | apply passert_inv in E; destruct E as (_ & E)].
  fold (flags_of (length ts) c) in E. set (fl := flags_of (length ts) c) in *.
  assert (EP : exists pos, pyrange a b d = map Z.of_nat pos /\ NoDup pos /\ forall k p, nth_error pos k = Some p <-> selects s (llen x) k p).
  { exists (map Z.to_nat (pyrange a b d)). assert (PN : forall k, k < range_len a b d -> Z.of_nat (Z.to_nat (a + Z.of_nat k * d)) = (a + Z.of_nat k * d)%Z) by (intros k Hk; destruct (RI k Hk) as (p & _ & ->); rewrite Nat2Z.id; reflexivity).
    unfold pyrange. rewrite !map_map. split; [apply map_ext_in; intros k Hk; apply in_seq in Hk; symmetry; apply PN; lia|].
    split.
    - apply NoDup_nth_error. intros i j Hi Eij. rewrite map_length, seq_length in Hi. rewrite !nth_error_map in Eij. rewrite (nth_error_nth' _ 0) in Eij by (rewrite seq_length; exact Hi). rewrite seq_nth in Eij by exact Hi. cbn [option_map Nat.add] in Eij.
      destruct (nth_error (seq 0 (range_len a b d)) j) as [j'|] eqn:Ej; [|discriminate]. assert (Hj : j < range_len a b d) by (rewrite <- (seq_length (range_len a b d) 0); apply nth_error_Some; congruence). rewrite (nth_error_nth' _ 0) in Ej by (rewrite seq_length; exact Hj). rewrite seq_nth in Ej by exact Hj. injection Ej as <-. cbn [option_map Nat.add] in Eij. injection Eij as Eij.
      apply (f_equal Z.of_nat) in Eij. rewrite !PN in Eij by assumption. nia.
    - intros k p. rewrite nth_error_map, SI. destruct (lt_dec k (range_len a b d)) as [Hk|Hk].
      + rewrite (nth_error_nth' _ 0) by (rewrite seq_length; exact Hk). rewrite seq_nth by exact Hk. cbn [option_map Nat.add]. split; [intros Q; injection Q as <-; split; [exact Hk|apply PN; exact Hk]|]. intros [_ Q]. rewrite <- Q, Nat2Z.id. reflexivity.
      + assert (EN : nth_error (seq 0 (range_len a b d)) k = None) by (apply nth_error_None; rewrite seq_length; lia). rewrite EN. split; [discriminate|]. intros [Q _]. lia. }
  destruct EP as (pos & Ep & Np & Sp). rewrite Ep in E. destruct (update_loop_nth ts x z pos fl E Np) as [L V]. split; [exact L|]. intros p Hp. destruct (V p) as [V1 V2]. split.
  - intros k t H1 H2 H3. destruct (nth_error fl k) as [f|] eqn:Ef; [|apply nth_error_None in Ef; lia]. eapply V1; [apply Sp; exact H1|exact H2|exact Ef].
  - intros H. apply V2. intros k t f H1 H2 H3. apply Sp in H1. assert (k < length ts) by (apply nth_error_Some; congruence). assert (k < length fl) by (apply nth_error_Some; congruence). destruct (H k H1); lia.
Qed.
Theorem update_slice_step0 (x : ltens K) a b ts c : lt_update_slice x (mkSlice a b (Some 0%Z)) ts c = Err ValueError.
Proof. reflexivity. Qed.

(** ** Partial traces *)
Definition pt_list (x : ltens K) (arg : ptarg) : list (option (Z * Z)) := match arg with PTAll a b => repeat (Some (a, b)) (llen x) | PTSites l => l end.
Definition bad_pair (P : nat -> Z -> Z -> Prop) (p : nd K * option (Z * Z)) : Prop := match snd p with None => False | Some (a, b) => P (length (pdims (fst p))) a b end.
Lemma map_const_rep {A B : Type} (b : B) (l : list A) : map (fun _ => b) l = repeat b (length l).
Proof. induction l; cbn; congruence. Qed.
Lemma ndims_map (x : ltens K) : Forall lt_ok (lts x) -> ndims x = map (fun t => Z.of_nat (length (pdims t))) (lts x).
Proof. intros W. unfold ndims. apply map_ext_in. intros t Ht. rewrite (ndim_lt t (proj1 (Forall_forall _ _) W t Ht)). lia. Qed.
Lemma combine_map1 {A B C : Type} (f : A -> B) (l : list A) (m : list C) : combine (map f l) m = map (fun p => (f (fst p), snd p)) (combine l m).
Proof. revert m. induction l as [|a l IH]; intros [|c m]; cbn; try reflexivity. rewrite IH. reflexivity. Qed.
Theorem pt_err_axis (x : ltens K) arg : Forall lt_ok (lts x) -> Exists (bad_pair (fun n a b => ~ in_range n a \/ ~ in_range n b)) (combine (lts x) (pt_list x arg)) -> partialtrace x arg = Err AssertionError.
Proof.
  intros W Ex. unfold partialtrace. assert (EA : match arg with PTAll a b => Ok (map (fun _ => Some (a, b)) (lts x)) | PTSites [] => Err IndexError | PTSites l => Ok l end = Ok (pt_list x arg)).
  { destruct arg as [a b|[|o l]]; cbn [pt_list]; [rewrite map_const_rep; reflexivity| |reflexivity]. cbn [pt_list] in Ex. rewrite combine_nil in Ex. inversion Ex. }
  rewrite EA. cbn [bind]. rewrite (ndims_map x W), combine_map1. match goal with |- passert ?b _ = _ => destruct b eqn:F; [|reflexivity] end. exfalso. apply Exists_exists in Ex. destruct Ex as ([t o] & Hi & H). rewrite forallb_forall in F.
  specialize (F (Z.of_nat (length (pdims t)), o) ltac:(apply in_map_iff; exists (t, o); split; [reflexivity|exact Hi])). unfold bad_pair in H. cbn [fst snd] in *. destruct o as [[a b]|]; [|exact H]. unfold pt_axis_ok, in_range in *. apply andb_true_iff in F. destruct F as [F1 F2]. apply andb_true_iff in F1, F2.
  destruct F1 as [F1 F1'], F2 as [F2 F2']. apply Z.leb_le in F1, F2. apply Z.ltb_lt in F1', F2'. lia.
Qed.
Lemma true_leg_pos n a : in_range n a -> norm_axis (S (S n)) (true_leg a) = Some (S (pos_of n a)).
Proof. intros H. unfold in_range in H. unfold norm_axis. rewrite pyidx_ok by (unfold in_range, true_leg; destruct (Z.leb_spec 0 a); lia). f_equal. unfold pos_of, true_leg. destruct (Z.leb_spec 0 a), (Z.ltb_spec a 0); try lia; match goal with |- context[(?u <? 0)%Z] => destruct (Z.ltb_spec u 0) end; lia. Qed.
Theorem pt_err_same (x : ltens K) arg : Forall lt_ok (lts x) -> ~ Exists (bad_pair (fun n a b => ~ in_range n a \/ ~ in_range n b)) (combine (lts x) (pt_list x arg)) ->
  Exists (bad_pair (fun n a b => pos_of n a = pos_of n b)) (combine (lts x) (pt_list x arg)) -> partialtrace x arg = Err ValueError.
Proof.
  intros W NE Ex. unfold partialtrace. assert (EA : match arg with PTAll a b => Ok (map (fun _ => Some (a, b)) (lts x)) | PTSites [] => Err IndexError | PTSites l => Ok l end = Ok (pt_list x arg)).
  { destruct arg as [a b|[|o l]]; cbn [pt_list]; [rewrite map_const_rep; reflexivity| |reflexivity]. cbn [pt_list] in Ex. rewrite combine_nil in Ex. inversion Ex. }
  rewrite EA. cbn [bind]. rewrite (ndims_map x W), combine_map1.
  assert (IR : forall t a b, In (t, Some (a, b)) (combine (lts x) (pt_list x arg)) -> in_range (length (pdims t)) a /\ in_range (length (pdims t)) b).
  { intros t a b Hi. destruct (in_range_dec (length (pdims t)) a) as [Ha|Ha]; [destruct (in_range_dec (length (pdims t)) b) as [Hb|Hb]; [auto|]|]; exfalso; apply NE; apply Exists_exists; exists (t, Some (a, b)); (split; [exact Hi|]); unfold bad_pair; cbn [fst snd]; auto. }
  match goal with |- passert ?b _ = _ => assert (b = true) as -> end.
  { apply forallb_forall. intros [z o] Hi. apply in_map_iff in Hi. destruct Hi as ([t o'] & Q & Hi). injection Q as <- <-. cbn [fst snd]. destruct o' as [[a b]|]; [|reflexivity]. destruct (IR _ _ _ Hi) as [[A1 A2] [B1 B2]]. unfold pt_axis_ok. apply andb_true_iff. split; apply andb_true_iff; split; (apply Z.leb_le || apply Z.ltb_lt); lia. }
  cbn [passert].
  assert (LT : forall t a b, In (t, Some (a, b)) (combine (lts x) (pt_list x arg)) -> local_trace t (a, b) = praise_unless (negb (pos_of (length (pdims t)) a =? pos_of (length (pdims t)) b)) ValueError (Ok (trace_axes t (S (pos_of (length (pdims t)) a)) (S (pos_of (length (pdims t)) b))))).
  { intros t a b Hi. destruct (IR _ _ _ Hi) as [A B]. unfold local_trace. cbn [fst snd]. assert (Wt : lt_ok t) by (apply (proj1 (Forall_forall _ _) W); eapply in_combine_l; exact Hi). rewrite (ndim_lt t Wt), (true_leg_pos _ _ A), (true_leg_pos _ _ B). reflexivity. }
  rewrite (mapM_err1 _ ValueError); [reflexivity| |].
  - apply Forall_forall. intros [t [[a b]|]] Hi; cbn [fst snd]; [|left; eexists; reflexivity]. rewrite (LT _ _ _ Hi). destruct (negb _); [left; eexists; reflexivity|right; reflexivity].
  - apply Exists_exists in Ex. destruct Ex as ([t o] & Hi & H). apply Exists_exists. exists (t, o). split; [exact Hi|]. unfold bad_pair in H. cbn [fst snd] in *. destruct o as [[a b]|]; [|destruct H]. rewrite (LT _ _ _ Hi), H, Nat.eqb_refl. reflexivity.
Qed.
Theorem pt_err_empty (x : ltens K) : partialtrace x (PTSites []) = Err IndexError.
Proof. reflexivity. Qed.
Theorem trace_err (x : ltens K) arg z : partialtrace x arg = Ok z -> mpa_ok z -> size (concat (mshape z)) <> 1 -> mtrace x arg = Err AssertionError.
Proof.
  intros E Hz H. unfold mtrace. rewrite E. cbn [bind]. rewrite (shp_to_array z Hz). apply Nat.eqb_neq in H. rewrite H. reflexivity.
Qed.
Theorem trace_err_pt (x : ltens K) arg e : partialtrace x arg = Err e -> mtrace x arg = Err e.
Proof. intros E. unfold mtrace. rewrite E. reflexivity. Qed.

(** ** Diagonals *)
Lemma pyget_in {A : Type} (l : list A) z d : in_range (length l) z -> pyget l z = Ok (nth (pos_of (length l) z) l d).
Proof.
  intros H. unfold pyget. rewrite (pyidx_ok _ _ H). assert (L : pos_of (length l) z < length l) by (unfold in_range, pos_of in *; destruct (Z.ltb_spec z 0); lia). rewrite (nth_error_nth' _ d L). reflexivity.
Qed.
Lemma pyget_out {A : Type} (l : list A) z : ~ in_range (length l) z -> pyget l z = Err IndexError.
Proof. intros H. unfold pyget. rewrite (pyidx_bad _ _ H). reflexivity. Qed.
Theorem diag_err_axis (x : ltens K) axis : Exists (fun p => ~ in_range (length p) axis) (mshape x) -> mdiag x axis = Err IndexError.
Proof.
  intros Ex. unfold mdiag. destruct (mshape x) as [|s0 ss] eqn:Es; [inversion Ex|]. cbn [pyget pyidx Z.leb Z.compare length Z.of_nat Z.ltb Pos.of_succ_nat]. cbn [Z.to_nat nth_error bind].
  destruct (in_range_dec (length s0) axis) as [H0|H0]; [|rewrite (pyget_out _ _ H0); reflexivity]. rewrite (pyget_in _ _ 0 H0) at 1. cbn [bind].
  rewrite (mapM_err1 _ IndexError); [reflexivity| |].
  - apply Forall_forall. intros p _. destruct (in_range_dec (length p) axis) as [H|H]; [left; eexists; apply (pyget_in _ _ 0 H)|right; apply pyget_out; exact H].
  - eapply Exists_impl; [|exact Ex]. intros p H. apply pyget_out. exact H.
Qed.
Theorem diag_err_dims (x : ltens K) axis s0 ss : mshape x = s0 :: ss -> Forall (fun p => in_range (length p) axis) (mshape x) ->
  Exists (fun p => nth (pos_of (length p) axis) p 0 <> nth (pos_of (length s0) axis) s0 0 \/ length p <> length s0) (mshape x) -> mdiag x axis = Err AssertionError.
Proof.
  intros Es Fr Ex. unfold mdiag. rewrite Es in *. cbn [pyget pyidx Z.leb Z.compare length Z.of_nat Z.ltb Pos.of_succ_nat]. cbn [Z.to_nat nth_error bind].
  inversion Fr as [|? ? F0 F1]; subst. rewrite (pyget_in _ _ 0 F0) at 1. cbn [bind].
  assert (EM : mapM (fun d => pyget d axis) (s0 :: ss) = Ok (map (fun p => nth (pos_of (length p) axis) p 0) (s0 :: ss))).
  { clear - Fr. induction Fr as [|p l Hp _ IH]; [reflexivity|]. cbn [mapM map]. rewrite (pyget_in _ _ 0 Hp). cbn [bind]. rewrite IH. reflexivity. }
  rewrite EM. cbn [bind]. match goal with |- passert ?b _ = _ => destruct b eqn:A; [|reflexivity] end. cbn [passert]. match goal with |- passert ?b _ = _ => destruct b eqn:B; [|reflexivity] end. exfalso.
  apply Exists_exists in Ex. destruct Ex as (p & Hp & H). rewrite forallb_forall in A, B. specialize (B p Hp). apply Nat.eqb_eq in B. specialize (A (nth (pos_of (length p) axis) p 0) ltac:(apply in_map_iff; exists p; auto)). apply Nat.eqb_eq in A. destruct H; congruence.
Qed.
(** A negative axis is looked up among the virtual legs: it never gives a diagonal of two or more entries. *)
Lemma mapM_fail {A B : Type} (f : A -> res B) l1 a l2 e : f a = Err e -> exists e', mapM f (l1 ++ a :: l2) = Err e'.
Proof. intros E. induction l1 as [|b l1 [e' IH]]; cbn [app mapM]; [rewrite E; eexists; reflexivity|]. destruct (f b); cbn [bind]; [rewrite IH|]; eexists; reflexivity. Qed.
Theorem diag_negative (x : ltens K) axis s0 ss : mpa_ok x -> mshape x = s0 :: ss -> (axis < 0)%Z -> 2 <= nth (pos_of (length s0) axis) s0 0 -> exists e, mdiag x axis = Err e.
Proof.
  intros Hx Es Ha Hd. destruct (Exists_dec (fun p => ~ in_range (length p) axis) (mshape x)) as [Ex|NE]; [intros p; destruct (in_range_dec (length p) axis); [right|left]; tauto| |].
  { exists IndexError. apply diag_err_axis. exact Ex. }
  assert (Fr : Forall (fun p => in_range (length p) axis) (mshape x)).
  { apply Forall_forall. intros p Hp. destruct (in_range_dec (length p) axis) as [H|H]; [exact H|]. exfalso. apply NE. apply Exists_exists. exists p. auto. }
  unfold mdiag. rewrite Es in Fr |- *. cbn [pyget pyidx Z.leb Z.compare length Z.of_nat Z.ltb Pos.of_succ_nat]. cbn [Z.to_nat nth_error bind]. assert (F0 : in_range (length s0) axis) by (inversion Fr; assumption). rewrite (pyget_in s0 axis 0 F0). cbn [bind].
  destruct (mapM _ (s0 :: ss)); [|eexists; reflexivity]. cbn [bind]. match goal with |- context[passert ?b _] => destruct b; [|eexists; reflexivity] end. cbn [passert]. match goal with |- context[passert ?b _] => destruct b; [|eexists; reflexivity] end. cbn [passert].
  set (f := fun i => do ts <- mapM (local_index (Z.to_nat (axis + 1)) i) (lts x); mpa_new ts). assert (Ef : f 1 = Err IndexError).
  { unfold f. replace (Z.to_nat (axis + 1)) with 0 by lia. unfold mshape in Es. destruct (lts x) as [|t ts] eqn:Ex; [discriminate|]. assert (B := proj2 Hx). rewrite Ex in B. destruct B as (Wt & Lt & _). cbn [mapM]. unfold local_index at 1. rewrite (lt_ok_shp t Wt), Lt. reflexivity. }
  set (dim := nth (pos_of (length s0) axis) s0 0) in *. replace (seq 0 dim) with ([0] ++ 1 :: seq 2 (dim - 2)) by (replace dim with (S (S (dim - 2))) at 2 by lia; reflexivity).
  destruct (mapM_fail f [0] 1 (seq 2 (dim - 2)) IndexError Ef) as [e Ee]. rewrite Ee. exists e. reflexivity.
Qed.
(** The same holds for the axes -1 and -2 of [transpose]; -3 is the last physical leg. *)
Theorem transpose_negative (x : ltens K) axes z : Forall lt_ok (lts x) -> lts x <> [] -> In z axes -> z = (-1)%Z \/ z = (-2)%Z -> mtranspose x (Some axes) = Err ValueError.
Proof.
  intros W N Hz H. apply transpose_err. destruct (lts x) as [|t ts] eqn:Ex; [congruence|]. left. intros [F P]. inversion W as [|? ? Wt _]; subst. pose proof (ndim_lt t Wt) as Nt. rewrite Nt in *. set (m := length (pdims t)) in *.
  assert (ND : NoDup (0 :: map (fun z => pos_of (S (S m)) (z + 1)) axes ++ [S (S m) - 1])) by (eapply Permutation_NoDup; [apply Permutation_sym; exact P|apply seq_NoDup]).
  inversion ND as [|? ? N0 N1]; subst. destruct H as [->| ->].
  - apply N0. apply in_or_app. left. apply in_map_iff. exists (-1)%Z. split; [reflexivity|exact Hz].
  - assert (Q : In (S (S m) - 1) (map (fun z => pos_of (S (S m)) (z + 1)) axes)) by (apply in_map_iff; exists (-2)%Z; split; [unfold pos_of; change (-2 + 1 <? 0)%Z with true; cbv iota; lia|exact Hz]). apply NoDup_remove_2 in N1. apply N1. rewrite app_nil_r. exact Q.
Qed.

(** ** Groups of sites, slices, embeddings, lists of summands *)
Theorem group_err0 (x : ltens K) : group_sites x 0 = Err ZeroDivisionError.
Proof. reflexivity. Qed.
Theorem slices_err0 l w : regular_slices l w 0 = Err ZeroDivisionError.
Proof. reflexivity. Qed.
Theorem embed_err_step (x : ltens K) n s emb d : s_step s = Some d -> d <> 1%Z -> embed_slice n s x emb = Err (if (d =? 0)%Z then ValueError else AssertionError).
Proof. intros E H. unfold embed_slice, slice_indices. rewrite E. destruct (d =? 0)%Z; [reflexivity|]. cbn [bind]. apply Z.eqb_neq in H. rewrite H. reflexivity. Qed.
Theorem embed_err_length (x : ltens K) n a b emb : a <= b -> b <= n -> llen x <> b - a -> embed_slice n (mkSlice (Some (Z.of_nat a)) (Some (Z.of_nat b)) None) x emb = Err AssertionError.
Proof.
  intros H1 H2 H. unfold embed_slice, slice_indices. cbn [s_start s_stop s_step]. destruct (Z.ltb_spec (Z.of_nat a) 0); [lia|]. destruct (Z.ltb_spec (Z.of_nat b) 0); [lia|]. cbn [Z.eqb Pos.eqb Z.ltb Z.compare bind passert]. rewrite !Z.min_l by lia. match goal with |- passert ?b _ = _ => destruct b eqn:A; [|reflexivity] end. apply Z.eqb_eq in A. lia.
Qed.
(** Without [embed_tensor] the first site of the embedded array has two legs of equal dimension. *)
Theorem embed_err_square (x : ltens K) n a b s0 ss : a <= b -> b <= n -> llen x = b - a -> mshape x = s0 :: ss -> (forall d, s0 <> [d; d]) ->
  embed_slice n (mkSlice (Some (Z.of_nat a)) (Some (Z.of_nat b)) None) x None = Err AssertionError.
Proof.
  intros H1 H2 H Es N. unfold embed_slice, slice_indices. cbn [s_start s_stop s_step]. destruct (Z.ltb_spec (Z.of_nat a) 0); [lia|]. destruct (Z.ltb_spec (Z.of_nat b) 0); [lia|]. cbn [Z.eqb Pos.eqb Z.ltb Z.compare bind passert]. rewrite !Z.min_l by lia.
  match goal with |- passert ?b _ = _ => destruct b eqn:A; [|reflexivity] end. cbn [passert]. unfold embed_ltens_identity. rewrite Es. destruct s0 as [|d1 [|d2 [|]]]; try reflexivity. destruct (Nat.eqb_spec d1 d2) as [->|]; [exfalso; apply (N d2); reflexivity|reflexivity].
Qed.
Theorem empty_lists w emb n : msumup (K:=K) [] w = Err IndexError /\ local_sum_identity (K:=K) [] emb = Err IndexError /\ local_sum (K:=K) [] emb n None = Err IndexError /\
  (forall xs, local_sum (K:=K) xs emb n (Some []) = Err IndexError) /\ mchain (K:=K) [] = Err ValueError /\ forall axes, block_diag_py (K:=K) [] axes = Err IndexError.
Proof. repeat split. Qed.
Theorem sumup_err_length (x0 : ltens K) xs w : Exists (fun x => llen x <> llen x0) xs -> msumup (x0 :: xs) w = Err AssertionError.
Proof.
  intros Ex. unfold msumup. match goal with |- passert ?b _ = _ => destruct b eqn:A; [|reflexivity] end. exfalso. rewrite forallb_forall in A. apply Exists_exists in Ex. destruct Ex as (x & Hx & H). specialize (A x ltac:(right; exact Hx)). apply Nat.eqb_eq in A. contradiction.
Qed.
Theorem local_sum_err_length (x0 : ltens K) xs emb n : Exists (fun x => llen x <> llen x0) xs -> local_sum (x0 :: xs) emb n None = Err AssertionError.
Proof.
  intros Ex. unfold local_sum, local_sum_identity, embed_ltens_identity. destruct emb as [e|]; [|destruct (mshape x0) as [|[|d1 [|d2 [|]]] ?]; try reflexivity; destruct (d1 =? d2); [|reflexivity]]; cbn [bind passert];
  (match goal with |- passert ?b _ = _ => destruct b eqn:A; [|reflexivity] end; exfalso; rewrite forallb_forall in A; apply Exists_exists in Ex; destruct Ex as (x & Hx & H); specialize (A x ltac:(right; exact Hx)); apply Nat.eqb_eq in A; contradiction).
Qed.

(** ** [block_diag] *)
Lemma bcast_same sh v : length v = length sh -> bcast_ok sh v = true <-> forall k, k < length sh -> nth k v 0 = 1 \/ nth k v 0 = nth k sh 0.
Proof.
  intros L. unfold bcast_ok, bcast_shape. rewrite L, Nat.sub_diag, Nat.leb_refl. cbn [repeat app andb]. revert v L. induction sh as [|d sh IH]; intros [|e v] L; try discriminate; cbn [combine forallb fst snd length].
  - split; [intros _ k H; lia|reflexivity].
  - rewrite andb_true_iff, IH by (injection L; auto). rewrite orb_true_iff, !Nat.eqb_eq. split.
    + intros [H1 H2] [|k] Hk; cbn [nth]; [tauto|apply H2; lia].
    + intros H. split; [apply (H 0); lia|]. intros k Hk. apply (H (S k)). lia.
Qed.
(** The array [s] repeated along the axes outside [axes] to the size of [s0]. *)
Definition repeated (s0 s e : nd K) (axes : list nat) : Prop :=
  ndwf e /\ ndim e = ndim s0 /\ (forall k, k < ndim s0 -> nth k (shp e) 0 = if memb k axes then nth k (shp s) 0 else nth k (shp s0) 0) /\
  forall idx, inr idx (shp e) -> get e idx = get s (restrict (shp s) idx).
Definition repeatable (s0 s : nd K) (axes : list nat) : Prop :=
  ndim s = ndim s0 /\ forall k, k < ndim s0 -> ~ In k axes -> nth k (shp s) 0 = 1 \/ nth k (shp s) 0 = nth k (shp s0) 0.
Lemma expand_spec (s0 s : nd K) axes : repeatable s0 s axes -> repeated s0 s (block_expand s0 axes s) axes.
Proof.
  intros [N R]. unfold repeated, block_expand, bcast_to. set (sh := map _ _). assert (Ls : length sh = ndim s0) by (unfold sh; rewrite map_length, seq_length; reflexivity).
  assert (Hn : forall k, k < ndim s0 -> nth k sh 0 = if memb k axes then nth k (shp s) 0 else nth k (shp s0) 0).
  { intros k Hk. unfold sh. rewrite nth_map_seq by exact Hk. destruct (memb k axes); reflexivity. }
  split; [apply wf_tab|]. split; [unfold ndim; exact Ls|]. split; [exact Hn|]. intros idx Hi. cbn [tab shp] in Hi. rewrite get_tab by exact Hi. apply bcast_get_spec; [|apply inr_length; exact Hi].
  apply bcast_ok_iff. apply bcast_same; [rewrite Ls; exact N|]. intros k Hk. rewrite Ls in Hk. rewrite (Hn k Hk). destruct (memb k axes) eqn:M; [right; reflexivity|]. apply R; [exact Hk|]. intros Q. apply memb_In in Q. congruence.
Qed.
Lemma restrict_id v idx : inr idx v -> restrict v idx = idx.
Proof.
  intros H. unfold restrict. rewrite (inr_length _ _ H), Nat.sub_diag. cbn [skipn]. induction H as [|i d idx v Hi H IH]; [reflexivity|]. cbn [combine map fst snd]. rewrite IH. destruct (Nat.eqb_spec d 1); [|reflexivity]. f_equal. lia.
Qed.
Lemma block_rest_nth (s0 s : nd K) axes : list_eqb (block_rest s0 axes s) (block_rest s0 axes s0) = true -> forall k, k < ndim s0 -> ~ In k axes -> nth k (shp s) 0 = nth k (shp s0) 0.
Proof.
  intros E k Hk Hn. apply list_eqb_eq in E. unfold block_rest, gather in E. assert (I : In k (freeaxes (ndim s0) axes)) by (apply in_freeaxes; auto). revert I E. generalize (freeaxes (ndim s0) axes). induction l as [|a l IH]; intros I E; [destruct I|]. cbn [map] in E. injection E as E1 E2. destruct I as [->|I]; [exact E1|apply IH; assumption].
Qed.
Lemma rest_ok (s0 s : nd K) axes : bcast_ok (block_rest s0 axes s0) (block_rest s0 axes s) = true <-> forall k, k < ndim s0 -> ~ In k axes -> nth k (shp s) 0 = 1 \/ nth k (shp s) 0 = nth k (shp s0) 0.
Proof.
  rewrite bcast_same by (unfold block_rest, gather; rewrite !map_length; reflexivity). unfold block_rest, gather. rewrite map_length. set (fr := freeaxes (ndim s0) axes). 
  assert (FN : forall (v : list nat) k, k < length fr -> nth k (map (fun i => nth i v 0) fr) 0 = nth (nth k fr 0) v 0).
  { intros v k Hk. rewrite (nth_indep _ 0 (nth 0 v 0)) by (rewrite map_length; exact Hk). apply (map_nth (fun i => nth i v 0)). }
  split.
  - intros H k Hk Hn. assert (I : In k fr) by (apply in_freeaxes; auto). apply (In_nth _ _ 0) in I. destruct I as (j & Hj & E). specialize (H j Hj). rewrite !FN, E in H by exact Hj. exact H.
  - intros H j Hj. rewrite !FN by exact Hj. assert (I : In (nth j fr 0) fr) by (apply nth_In; exact Hj). apply in_freeaxes in I. apply H; tauto.
Qed.
Theorem block_diag_repeat (s0 : nd K) ss axes : Forall ndwf (s0 :: ss) ->
  (Forall (fun s => repeatable s0 s axes) ss -> exists es, Forall2 (fun s e => repeated s0 s e axes) (s0 :: ss) es /\ block_diag_py (s0 :: ss) axes = block_diag_py es axes) /\
  (~ Forall (fun s => repeatable s0 s axes) ss -> block_diag_py (s0 :: ss) axes = Err ValueError).
Proof.
  intros W. assert (R0 : repeatable s0 s0 axes) by (split; [reflexivity|]; auto). split.
  - intros R. assert (RA : Forall (fun s => repeatable s0 s axes) (s0 :: ss)) by (constructor; assumption). exists (map (block_expand s0 axes) (s0 :: ss)). split.
    { clear W. induction RA as [|s l H _ IH]; cbn [map]; constructor; [apply expand_spec; exact H|exact IH]. }
    assert (ID : forall s, ndwf s -> ndim s = ndim s0 -> (forall k, k < ndim s0 -> ~ In k axes -> nth k (shp s) 0 = nth k (shp s0) 0) -> block_expand s0 axes s = s).
    { intros s Ws Ns Hs. destruct (expand_spec s0 s axes) as (We & Ne & Se & Ve); [split; [exact Ns|]; auto|].
      assert (SE : shp (block_expand s0 axes s) = shp s).
      { apply (nth_ext _ _ 0 0); [unfold ndim in *; congruence|]. intros k Hk. unfold ndim in Ne. rewrite Ne in Hk. rewrite (Se k Hk). destruct (memb k axes) eqn:M; [reflexivity|]. symmetry. apply Hs; [exact Hk|]. intros Q. apply memb_In in Q. congruence. }
      apply nd_eq; [exact We|exact Ws|exact SE|]. intros idx Hi. rewrite (Ve idx Hi). rewrite SE in Hi. rewrite restrict_id by exact Hi. reflexivity. }
    assert (E0 : block_expand s0 axes s0 = s0) by (apply ID; [inversion W; assumption|reflexivity|auto]).
    set (es := map (block_expand s0 axes) (s0 :: ss)). assert (EH : block_diag_py es axes = Ok (block_diag es axes)).
    { unfold es. cbn [map]. rewrite E0. unfold block_diag_py. assert (P : Forall (fun e => Nat.eqb (ndim e) (ndim s0) = true /\ list_eqb (block_rest s0 axes e) (block_rest s0 axes s0) = true) (s0 :: map (block_expand s0 axes) ss)).
      { constructor; [split; [apply Nat.eqb_refl|apply list_eqb_refl]|]. apply Forall_map. eapply Forall_impl; [|exact R]. intros s Hs. destruct (expand_spec s0 s axes Hs) as (_ & Ne & Se & _). split; [apply Nat.eqb_eq; exact Ne|]. apply list_eqb_eq. unfold block_rest, gather. apply map_ext_in. intros k Hk. apply in_freeaxes in Hk. rewrite Se by tauto. destruct (memb k axes) eqn:M; [|reflexivity]. apply memb_In in M. tauto. }
      match goal with |- praise_unless ?b _ _ = _ => assert (b = true) as -> end; [apply forallb_forall; intros e He; apply (proj1 (Forall_forall _ _) P e He)|]. cbn [praise_unless].
      match goal with |- (if ?b then _ else _) = _ => assert (b = true) as -> end; [apply forallb_forall; intros e He; apply (proj1 (Forall_forall _ _) P e He)|]. reflexivity. }
    rewrite EH. unfold block_diag_py. match goal with |- praise_unless ?b _ _ = _ => assert (b = true) as -> end; [apply forallb_forall; intros s Hs; apply Nat.eqb_eq; apply (proj1 (Forall_forall _ _) RA s Hs)|]. cbn [praise_unless].
    destruct (forallb (fun a => list_eqb (block_rest s0 axes a) (block_rest s0 axes s0)) (s0 :: ss)) eqn:F.
    + f_equal. f_equal. unfold es. rewrite <- (map_id (s0 :: ss)) at 1. apply map_ext_in. intros s Hs. symmetry. apply ID; [apply (proj1 (Forall_forall _ _) W); exact Hs|apply (proj1 (Forall_forall _ _) RA s Hs)|]. apply block_rest_nth. rewrite forallb_forall in F. apply F. exact Hs.
    + match goal with |- praise_unless ?b _ _ = _ => assert (b = true) as -> end; [|reflexivity]. apply forallb_forall. intros s Hs. apply rest_ok. apply (proj1 (Forall_forall _ _) RA s Hs).
  - intros N. unfold block_diag_py. match goal with |- praise_unless ?b _ _ = _ => destruct b eqn:F end; [|reflexivity]. cbn [praise_unless]. rewrite forallb_forall in F.
    assert (NB : ~ (forall s, In s (s0 :: ss) -> forall k, k < ndim s0 -> ~ In k axes -> nth k (shp s) 0 = 1 \/ nth k (shp s) 0 = nth k (shp s0) 0)).
    { intros H. apply N. apply Forall_forall. intros s Hs. split; [apply Nat.eqb_eq; apply F; right; exact Hs|]. apply H. right. exact Hs. }
    match goal with |- (if ?b then _ else _) = _ => destruct b eqn:G end.
    + exfalso. apply NB. intros s Hs k Hk Hn. right. rewrite forallb_forall in G. apply (block_rest_nth s0 s axes (G s Hs)); assumption.
    + match goal with |- praise_unless ?b _ _ = _ => destruct b eqn:G' end; [|reflexivity]. exfalso. apply NB. intros s Hs. rewrite forallb_forall in G'. apply rest_ok. apply G'. exact Hs.
Qed.
End Errors3.
