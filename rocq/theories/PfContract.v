(** [dot] in terms of the shapes of the sites, for the contractions of mppovm.py. *)
From Verif Require Export Match PfMpPovm PfSymm PfTrace.
Open Scope nat_scope.

(** A site of shape [f a c]: the legs selected by [zs] have dimensions [c], the others [a], and
    indices are put together in the same way. *)
Definition site_form (zs : list Z) (f : list nat -> list nat -> list nat) (a c : list nat) : Prop :=
  keep zs (f a c) = a /\ pick zs (f a c) = c /\ legs_ok (length (f a c)) zs /\
  forall i k, inr i a -> inr k c -> site_idx zs (f a c) i k = f i k /\ inr (f i k) (f a c).

Definition tail_of (a c : list nat) : list nat := a ++ c.
Definition head_of (a c : list nat) : list nat := c ++ a.
Lemma form_last a e : site_form [(-1)%Z] tail_of a [e].
Proof.
  destruct (keep_last a e) as (H1 & H2 & H3). split; [exact H1|]. split; [exact H2|]. split; [exact H3|].
  intros i k Hi Hk. apply inr_cons_inv in Hk. destruct Hk as (k' & l & -> & Hk & Hl). inversion Hl; subst. split; [apply site_idx_last; apply inr_length; exact Hi|].
  apply inr_app; [exact Hi|]. apply inr_single. exact Hk.
Qed.
Lemma form_first a e : site_form [0%Z] head_of a [e].
Proof.
  destruct (keep_first e a) as (H1 & H2 & H3). split; [exact H1|]. split; [exact H2|]. split; [exact H3|].
  intros i k Hi Hk. apply inr_cons_inv in Hk. destruct Hk as (k' & l & -> & Hk & Hl). inversion Hl; subst. split; [apply site_idx_first; apply inr_length; exact Hi|].
  apply inr_cons; assumption.
Qed.
Lemma form_12 n h1 h2 : site_form [1; 2]%Z tail_of [n] [h1; h2].
Proof.
  split; [reflexivity|]. split; [reflexivity|]. split; [split; [intros z [<-|[<-|[]]]; cbn; lia|repeat constructor; cbn; intuition lia]|].
  intros i k Hi Hk. split; [|apply inr_app; assumption].
  apply inr_cons_inv in Hi. destruct Hi as (i' & l & -> & Hi & Hl). inversion Hl; subst.
  apply inr_cons_inv in Hk. destruct Hk as (k1' & l' & -> & Hk & Hl'). apply inr_cons_inv in Hl'. destruct Hl' as (k2 & l2 & -> & Hk2 & Hl2). inversion Hl2; subst. reflexivity.
Qed.
Lemma form_01 n m : site_form [0; 1]%Z head_of [] [n; m].
Proof.
  split; [reflexivity|]. split; [reflexivity|]. split; [split; [intros z [<-|[<-|[]]]; cbn; lia|repeat constructor; cbn; intuition lia]|].
  intros i k Hi Hk. split; [|apply inr_app; assumption]. inversion Hi; subst.
  apply inr_cons_inv in Hk. destruct Hk as (k1' & l' & -> & Hk & Hl'). apply inr_cons_inv in Hl'. destruct Hl' as (k2 & l2 & -> & Hk2 & Hl2). inversion Hl2; subst. reflexivity.
Qed.

Section Contract.
Context {K : StarRing}.
Add Ring Kr : (k_ring K).
Lemma forms_keep zs f A C : Forall2 (site_form zs f) A C ->
  map (keep zs) (zip2 f A C) = A /\ map (pick zs) (zip2 f A C) = C /\ Forall (fun p => legs_ok (length p) zs) (zip2 f A C).
Proof.
  induction 1 as [|a c A C (H1 & H2 & H3 & _) H (I1 & I2 & I3)]; [repeat split; constructor|]. cbn [zip2 map]. rewrite H1, H2, I1, I2. repeat split. constructor; assumption.
Qed.
Lemma forms_idx zs f A C : Forall2 (site_form zs f) A C -> forall is cs, Forall2 inr is A -> Forall2 inr cs C ->
  zip3 (site_idx zs) (zip2 f A C) is cs = zip2 f is cs /\ Forall2 inr (zip2 f is cs) (zip2 f A C).
Proof.
  induction 1 as [|a c A C (_ & _ & _ & H1) H IH]; intros is cs Hi Hc; inversion Hi; inversion Hc; subst; [split; constructor|].
  destruct (IH l l0) as [E F]; [assumption..|]. destruct (H1 x x0) as [E' F']; [assumption..|]. cbn [zip2 zip3]. rewrite E, E'. split; [reflexivity|constructor; assumption].
Qed.
(** The result of [mdot] *)
Theorem mdot_by (x y : ltens K) ax fa fb A B C : mpa_ok x -> mpa_ok y ->
  mshape x = zip2 fa A C -> mshape y = zip2 fb B C ->
  Forall2 (site_form (fst (user_axes ax)) fa) A C -> Forall2 (site_form (snd (user_axes ax)) fb) B C ->
  exists z, mdot x y ax = Ok z /\ mpa_ok z /\ mshape z = zip2 (@app nat) A B /\ ranks z = zip2 Nat.mul (ranks x) (ranks y) /\
    canonical_form z = (0%Z, Z.of_nat (llen x)) /\
    forall is js, Forall2 inr is A -> Forall2 inr js B ->
      entry z (zip2 (@app nat) is js) = msums C (fun cs => entry x (zip2 fa is cs) * entry y (zip2 fb js cs))%K.
Proof.
  intros Hx Hy Sx Sy Fa Fb. destruct (forms_keep _ _ _ _ Fa) as (Ka & Pa & La). destruct (forms_keep _ _ _ _ Fb) as (Kb & Pb & Lb).
  destruct (mdot_spec x y ax Hx Hy) as (z & Ez & Hz & Sz & Rz & Cz & Az).
  { rewrite Sx, Sy. clear - Fa Fb. revert B Fb. induction Fa as [|a c A C Ha Fa IH]; intros B Fb; inversion Fb as [|b c' B' C' Hb Fb']; subst; [constructor|].
    cbn [zip2]. constructor; [|apply IH; assumption]. destruct Ha as (_ & Pa & La & _), Hb as (_ & Pb & Lb & _). split; [exact La|]. split; [exact Lb|]. congruence. }
  exists z. split; [exact Ez|]. split; [exact Hz|].
  assert (Sz' : mshape z = zip2 (@app nat) A B).
  { rewrite Sz, Sx, Sy. pose proof (Forall2_len _ _ _ _ _ Fa) as L1. pose proof (Forall2_len _ _ _ _ _ Fb) as L2. clear - Ka Kb L1 L2.
    revert A B L1 L2 Ka Kb. induction C as [|c C IH]; intros [|a A] [|b B] L1 L2 Ka Kb; try discriminate; [reflexivity|]. cbn [zip2 map] in *. injection Ka as Ka1 Ka2. injection Kb as Kb1 Kb2. rewrite Ka1, Kb1. f_equal. apply IH; auto. }
  split; [exact Sz'|]. split; [exact Rz|]. split; [exact Cz|]. intros is js Hi Hj.
  rewrite entry_amp; [|exact Hz|].
  - rewrite Az; [|rewrite Sx, Ka; exact Hi|rewrite Sy, Kb; exact Hj]. rewrite Sx, Sy, Pa. apply msums_ext. intros cs Hc.
    destruct (forms_idx _ _ _ _ Fa is cs Hi Hc) as [E1 V1]. destruct (forms_idx _ _ _ _ Fb js cs Hj Hc) as [E2 V2]. rewrite E1, E2.
    rewrite !entry_amp by (auto; unfold valid_idx; rewrite ?Sx, ?Sy; assumption). reflexivity.
  - unfold valid_idx. rewrite Sz'. clear - Hi Hj. assert (L : length A = length B \/ True) by tauto. clear L.
    revert js B Hj. induction Hi as [|i a is A Hi1 Hi IH]; intros js B Hj; [constructor|]. inversion Hj; subst; [constructor|]. cbn [zip2]. constructor; [apply inr_app; assumption|apply IH; assumption].
Qed.
(** Bonds stay positive. *)
Lemma zip_mul_pos l : forall m, Forall (fun d => 0 < d) l -> Forall (fun d => 0 < d) m -> Forall (fun d => 0 < d) (zip2 Nat.mul l m).
Proof. induction l as [|a l IH]; intros [|b m] H1 H2; cbn [zip2]; try constructor; inversion H1; inversion H2; subst; [nia|auto]. Qed.
Lemma dot_bonds_pos (x y z : ltens K) : mpa_ok z -> ranks z = zip2 Nat.mul (ranks x) (ranks y) -> bonds_pos x -> bonds_pos y -> bonds_pos z.
Proof. intros Hz R Bx By. apply ranks_pos; [exact Hz|]. rewrite R. apply zip_mul_pos; apply pos_ranks; assumption. Qed.

(** Products: [from_kron] *)
Lemma tail_triples ns : forall is js, length is = length ns -> length js = length ns -> zip2 tail_of (singles ns) (pairs is js) = triples ns is js.
Proof. induction ns as [|n ns IH]; intros [|i is] [|j js] L1 L2; try discriminate; [reflexivity|]. cbn [singles map pairs zip2]. rewrite triples_cons. f_equal. apply IH; auto. Qed.
Lemma tshape_tail ns : forall hs, length ns = length hs -> tshape ns hs = zip2 tail_of (singles ns) (squares hs).
Proof. induction ns as [|n ns IH]; intros [|h hs] L; try discriminate; [reflexivity|]. cbn. f_equal. apply IH; auto. Qed.
Lemma triples_head ks : forall is js, length is = length ks -> length js = length ks -> triples ks is js = zip2 head_of (pairs is js) (singles ks).
Proof. induction ks as [|n ns IH]; intros [|i is] [|j js] L1 L2; try discriminate; [reflexivity|]. rewrite triples_cons. cbn [singles map pairs zip2]. f_equal. apply IH; auto. Qed.
Lemma tshape_head ns : forall hs, length ns = length hs -> tshape ns hs = zip2 head_of (squares hs) (singles ns).
Proof. induction ns as [|n ns IH]; intros [|h hs] L; try discriminate; [reflexivity|]. cbn. f_equal. apply IH; auto. Qed.
Lemma pairs_tail is : forall js, length is = length js -> pairs is js = zip2 tail_of (singles is) (singles js).
Proof. induction is as [|n ns IH]; intros [|h hs] L; try discriminate; [reflexivity|]. cbn. f_equal. apply IH; auto. Qed.
Lemma app_triples ks : forall is js, length is = length ks -> length js = length ks -> zip2 (@app nat) (singles ks) (pairs is js) = triples ks is js.
Proof. exact (tail_triples ks). Qed.
Lemma app_pairs is : forall js, length is = length js -> zip2 (@app nat) (singles is) (singles js) = pairs is js.
Proof. intros js L. symmetry. apply pairs_tail. exact L. Qed.
Lemma app_tshape ns : forall hs, length ns = length hs -> zip2 (@app nat) (singles ns) (squares hs) = tshape ns hs.
Proof. intros hs L. symmetry. apply tshape_tail. exact L. Qed.
Lemma forms2 zs f (A C : list (list nat)) : length A = length C -> (forall a c, In a A -> In c C -> site_form zs f a c) -> Forall2 (site_form zs f) A C.
Proof.
  revert C. induction A as [|a A IH]; intros [|c C] L H; try discriminate; constructor; [apply H; left; reflexivity|]. apply IH; [auto|]. intros; apply H; right; assumption.
Qed.
Lemma in_singles a ns : In a (singles ns) -> exists n, a = [n].
Proof. unfold singles. rewrite in_map_iff. intros (n & <- & _). eauto. Qed.
Lemma in_squares a hs : In a (squares hs) -> exists n, a = [n; n].
Proof. unfold squares. rewrite in_map_iff. intros (n & <- & _). eauto. Qed.
Lemma singles_len ns : length (singles ns) = length ns.
Proof. apply map_length. Qed.
Lemma squares_len ns : length (squares ns) = length ns.
Proof. apply map_length. Qed.
Lemma msums_squares hs (f : list (list nat) -> K) : msums (squares hs) f = msum hs (fun is => msum hs (fun js => f (pairs is js))).
Proof. destruct (squares_legs hs) as (Q1 & Q2 & Q3). rewrite (msums_pairs _ _ Q1), Q2, Q3. reflexivity. Qed.
Lemma squares_valid hs : forall is js, inr is hs -> inr js hs -> Forall2 inr (pairs is js) (squares hs).
Proof. intros is js Hi Hj. revert js Hj. induction Hi as [|i h is hs Hi His IH]; intros js Hj; [inversion Hj; constructor|]. apply inr_cons_inv in Hj. destruct Hj as (j & js' & -> & Hj & Hjs). cbn. constructor; [repeat constructor; assumption|apply IH; exact Hjs]. Qed.
End Contract.
