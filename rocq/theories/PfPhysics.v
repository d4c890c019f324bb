(** Proofs about utils/physics.py. *)
From Verif Require Export PfDm Physics PfKron PfHam.
Open Scope nat_scope.

Section Phys.
Context {K : StarRing}.
Add Ring Kr : (k_ring K).
Implicit Types (x : ltens K) (is js : list nat).

(** ** Specification: an operator on the sites [a] and [b] of a chain *)
(** [f i1 i2 j1 j2] is the matrix element of the operator; the other sites carry the
    identity. *)
Definition on_pair (f : nat -> nat -> nat -> nat -> K) (a b : nat) is js : K :=
  if forallb (fun k => Nat.eqb k a || Nat.eqb k b || Nat.eqb (nth k is 0) (nth k js 0)) (seq 0 (length is))
  then f (nth a is 0) (nth b is 0) (nth a js 0) (nth b js 0) else k0.
Definition elem x (i1 i2 j1 j2 : nat) : K := entry x [[i1; j1]; [i2; j2]].

Lemma agree_true (p q : list nat) : length p = length q -> (forall k, k < length p -> nth k p 0 = nth k q 0) -> p = q.
Proof. intros L H. apply (nth_ext p q 0 0 L H). Qed.
Lemma on_pair_split f s p a b q p' a' b' q' : length p = s -> length p' = s -> length q = length q' ->
  on_pair f s (S s) (p ++ a :: b :: q) (p' ++ a' :: b' :: q') = (agree p p' * f a b a' b' * agree q q')%K.
Proof.
  intros L1 L2 L3. unfold on_pair, agree. rewrite !app_nth2 by lia. rewrite L1, L2.
  replace (s - s) with 0 by lia. replace (S s - s) with 1 by lia. cbn [nth].
  destruct (forallb _ _) eqn:E.
  - rewrite forallb_forall in E.
    assert (H : forall k, k < s + (2 + length q) -> k <> s -> k <> S s -> nth k (p ++ a :: b :: q) 0 = nth k (p' ++ a' :: b' :: q') 0).
    { intros k Hk N1 N2. specialize (E k). rewrite !orb_true_iff, !Nat.eqb_eq in E. destruct E as [[E|E]|E]; [|congruence|congruence|exact E].
      apply in_seq. rewrite app_length. cbn [length]. lia. }
    assert (Ep : p = p').
    { apply agree_true; [lia|]. intros k Hk. specialize (H k). rewrite !app_nth1 in H by lia. apply H; lia. }
    assert (Eq : q = q').
    { apply agree_true; [lia|]. intros k Hk. specialize (H (s + (2 + k))). rewrite !app_nth2 in H by lia. rewrite L1, L2 in H.
      replace (s + (2 + k) - s) with (2 + k) in H by lia. cbn [nth Nat.add] in H. apply H; lia. }
    subst p' q'. destruct (list_eq_dec Nat.eq_dec p p); [|congruence]. destruct (list_eq_dec Nat.eq_dec q q); [|congruence]. ring.
  - destruct (list_eq_dec Nat.eq_dec p p') as [->|]; [|ring]. destruct (list_eq_dec Nat.eq_dec q q') as [->|]; [|ring]. exfalso.
    assert (C : forall (g : nat -> bool) l, (forall k, In k l -> g k = true) -> forallb g l = true) by (intros; apply forallb_forall; auto).
    rewrite C in E; [discriminate|]. intros k Hk. destruct (Nat.eqb_spec k s); [reflexivity|]. destruct (Nat.eqb_spec k (S s)); [reflexivity|]. cbn [orb]. apply Nat.eqb_eq.
    destruct (Nat.lt_ge_cases k s) as [H|H]; [rewrite !app_nth1 by lia; reflexivity|]. rewrite !app_nth2 by lia. rewrite L2. destruct (k - s) as [|[|m]] eqn:Em; [lia|lia|reflexivity].
Qed.
Lemma on_pair_ends f n a m b a' m' b' : length m = n -> length m' = n ->
  on_pair f 0 (S n) (a :: m ++ [b]) (a' :: m' ++ [b']) = (f a b a' b' * agree m m')%K.
Proof.
  intros L1 L2. unfold on_pair, agree. cbn [nth]. rewrite !app_nth2 by lia. rewrite L1, L2, Nat.sub_diag. cbn [nth].
  destruct (forallb _ _) eqn:E.
  - rewrite forallb_forall in E.
    assert (Em : m = m').
    { apply agree_true; [lia|]. intros k Hk. specialize (E (S k)). rewrite !orb_true_iff, !Nat.eqb_eq in E. destruct E as [[E|E]|E]; [|lia|lia|].
      - apply in_seq. cbn [length]. rewrite app_length. cbn [length]. lia.
      - cbn [nth] in E. rewrite !app_nth1 in E by lia. exact E. }
    subst m'. destruct (list_eq_dec Nat.eq_dec m m); [|congruence]. ring.
  - destruct (list_eq_dec Nat.eq_dec m m') as [->|]; [|ring]. exfalso.
    assert (C : forall (g : nat -> bool) l, (forall k, In k l -> g k = true) -> forallb g l = true) by (intros; apply forallb_forall; auto).
    rewrite C in E; [discriminate|]. intros k Hk. apply in_seq in Hk. cbn [length] in Hk. rewrite app_length in Hk. cbn [length] in Hk.
    destruct k as [|k]; [reflexivity|]. cbn [Nat.eqb orb nth]. destruct (Nat.eqb_spec k n); [reflexivity|]. cbn [orb]. apply Nat.eqb_eq. rewrite !app_nth1 by lia. reflexivity.
Qed.
Lemma split_at2 is N s : length is = N -> s + 2 <= N -> exists p a b q, is = p ++ a :: b :: q /\ length p = s /\ length q = N - s - 2.
Proof.
  intros L H. exists (firstn s is), (nth s is 0), (nth (S s) is 0), (skipn (S (S s)) is).
  split; [|rewrite firstn_length, skipn_length; lia].
  rewrite <- (skipn_cons_nth _ is (S s) 0) by lia. rewrite <- (skipn_cons_nth _ is s 0) by lia. symmetry. apply firstn_skipn.
Qed.
Lemma split_ends is N : length is = N -> 2 <= N -> exists a m b, is = a :: m ++ [b] /\ length m = N - 2.
Proof.
  intros L H. destruct is as [|a is]; [cbn in L; lia|]. destruct (exists_last (l := is)) as (m & b & ->); [destruct is; [cbn in L; lia|discriminate]|].
  exists a, m, b. split; [reflexivity|]. cbn in L. rewrite app_length in L. cbn in L. lia.
Qed.
Lemma inr_rep_app d p q n : inr (p ++ q) (repeat d n) -> inr p (repeat d (length p)) /\ inr q (repeat d (length q)).
Proof.
  intros H. revert n H. induction p as [|a p IH]; intros n H; cbn [app length repeat] in *.
  - split; [constructor|]. pose proof (inr_length _ _ H) as L. rewrite repeat_length in L. subst n. exact H.
  - destruct n as [|n]; cbn [repeat] in H; [inversion H|]. inversion H as [|? ? ? ? H1 H2]; subst. destruct (IH n H2). split; [constructor; assumption|assumption].
Qed.
Lemma pairs_app is js is' js' : length is = length js -> pairs (is ++ is') (js ++ js') = pairs is js ++ pairs is' js'.
Proof. revert js. induction is as [|x is IH]; intros [|y js] L; try discriminate; [reflexivity|]. cbn [app]. change (pairs (x :: is ++ is') (y :: js ++ js')) with ([x; y] :: pairs (is ++ is') (js ++ js')). rewrite IH by (cbn in L; lia). reflexivity. Qed.

(** ** mpo_cH *)
Theorem mpo_cH_spec (terms : list (ltens K)) d N : length terms = N -> 2 <= N ->
  Forall mpa_ok terms -> Forall (fun x => mshape x = [[d; d]; [d; d]]) terms ->
  exists z, mpo_cH terms = Ok z /\ mpa_ok z /\ mshape z = repeat [d; d] N /\ canonical_form z = (0%Z, Z.of_nat N) /\
    forall is js, inr is (repeat d N) -> inr js (repeat d N) ->
      entry z (pairs is js) = (bigsum (N - 1) (fun s => on_pair (elem (nth s terms (mkLt [] 0 0))) s (S s) is js) +
                               on_pair (elem (last terms (mkLt [] 0 0))) 0 (N - 1) is js)%K.
Proof.
  intros LN HN Hok Hsh.
  assert (Et : terms = removelast terms ++ [last terms (mkLt [] 0 0)]) by (symmetry; apply snoc_last; destruct terms; [cbn in LN; lia|discriminate]).
  set (front := removelast terms) in *. set (lst := last terms (mkLt [] 0 0)) in *.
  assert (Ef : removelast terms = front) by reflexivity. assert (El : last terms (mkLt [] 0%Z 0%Z) = lst) by reflexivity.
  assert (Lf : length front = N - 1) by (rewrite Et, app_length in LN; cbn in LN; lia).
  assert (Fok : Forall mpa_ok front /\ mpa_ok lst).
  { rewrite Et in Hok. apply Forall_app in Hok. destruct Hok as [A B]. apply Forall_inv in B. auto. }
  assert (Fsh : Forall (fun x => mshape x = [[d; d]; [d; d]]) front /\ mshape lst = [[d; d]; [d; d]]).
  { rewrite Et in Hsh. apply Forall_app in Hsh. destruct Hsh as [A B]. apply Forall_inv in B. auto. }
  destruct Fok as [Fok Lok]. destruct Fsh as [Fsh Lsh].
  assert (Hnth : forall s, s < N - 1 -> nth s terms (mkLt [] 0 0) = nth s front (mkLt [] 0 0)) by (intros s Hs; rewrite Et; apply app_nth1; lia).
  clear Et. clearbody front lst.
  destruct (local_sum_identity_spec front None (eye d) [d; d] 2) as (h & E1 & H1 & S1 & C1 & C2 & _ & A1); auto.
  { intros ->. cbn in Lf. lia. }
  { destruct front as [|y front]; [cbn in Lf; lia|]. exists d, [[d; d]]. split; [exact (Forall_inv Fsh)|reflexivity]. }
  { apply wf_tab. }
  replace (length front + 2 - 1) with N in * by lia.
  assert (Lh : llen h = N) by (rewrite <- mshape_length, S1; apply repeat_length).
  assert (Ll : llen lst = 2) by (rewrite <- mshape_length, Lsh; reflexivity).
  destruct (inject_spec lst [1] [InjRep (llen h - 2) None] [repeat (eye d) (N - 2)]) as (c & E2 & H2 & S2 & _ & _ & A2); [exact Lok| | |].
  { cbn. lia. }
  { constructor; [|constructor]. unfold injected. cbn [inject_list]. rewrite Lh, Ll. clear - Lsh. induction (N - 2) as [|n IH]; cbn [repeat]; constructor; [|exact IH].
    exists d, [d]. rewrite Lsh. split; reflexivity. }
  assert (S2' : mshape c = repeat [d; d] N).
  { rewrite S2, Lsh. cbn [cuts interleave firstn skipn Nat.sub map app]. rewrite map_rep. replace N with (S (N - 2 + 1)) at 2 by lia. cbn [repeat]. f_equal. rewrite repeat_app. reflexivity. }
  destruct (madd_spec h c H1 H2) as (z & E3 & H3 & S3 & _ & C3 & C4 & A3); [congruence|].
  exists z. split; [unfold mpo_cH, local_sum; rewrite Ef, El, E1; cbn [bind]; change [1%Z] with (map Z.of_nat [1]); rewrite E2; exact E3|].
  split; [exact H3|]. split; [congruence|]. split; [unfold canonical_form; rewrite C3, C4, Lh; reflexivity|].
  intros is js Hi Hj. pose proof (inr_length _ _ Hi) as Li. pose proof (inr_length _ _ Hj) as Lj. rewrite repeat_length in Li, Lj.
  assert (V : valid_idx (pairs is js) (repeat [d; d] N)) by (rewrite <- map_rep with (f := fun d => [d; d]); apply pairs_valid_sq; assumption).
  rewrite entry_amp by (auto; rewrite S3, S1; exact V). rewrite A3 by (rewrite S1; exact V). f_equal.
  - rewrite A1 by exact V. rewrite Lf. apply bigsum_ext. intros s Hs. rewrite Hnth by exact Hs.
    destruct (split_at2 is N s Li ltac:(lia)) as (p & a & b & q & -> & Lp & Lq). destruct (split_at2 js N s Lj ltac:(lia)) as (p' & a' & b' & q' & -> & Lp' & Lq').
    rewrite on_pair_split by lia. destruct (inr_rep_app _ _ _ _ Hi) as [Ip Iq]. destruct (inr_rep_app _ _ _ _ Hj) as [Jp Jq].
    change (a :: b :: q) with ([a; b] ++ q) in Iq. change (a' :: b' :: q') with ([a'; b'] ++ q') in Jq.
    destruct (inr_rep_app _ _ _ _ Iq) as [Iab Iq']. destruct (inr_rep_app _ _ _ _ Jq) as [Jab Jq'].
    rewrite pairs_app by lia. change (pairs (a :: b :: q) (a' :: b' :: q')) with ([[a; a']; [b; b']] ++ pairs q q').
    assert (LP : length (pairs p p') = s) by (clear - Lp Lp'; subst s; revert p' Lp'; induction p as [|u p IH]; intros [|v p'] L; try discriminate; [reflexivity|]; change (pairs (u :: p) (v :: p')) with ([u; v] :: pairs p p'); cbn [length]; rewrite IH by (cbn in L; lia); reflexivity).
    rewrite firstn_app, LP, Nat.sub_diag, firstn_all2 by lia. cbn [firstn]. rewrite app_nil_r.
    rewrite (skipn_app s), LP, Nat.sub_diag, skipn_all2 by lia. cbn [skipn app firstn].
    rewrite skipn_app, LP. replace (s + 2 - s) with 2 by lia. rewrite skipn_all2 by lia. cbn [skipn app].
    rewrite !prod_eye1 by (assumption || lia). unfold agree, elem. f_equal. f_equal. symmetry. apply entry_amp.
    + rewrite Forall_forall in Fok. apply Fok. apply nth_In. lia.
    + rewrite Forall_forall in Fsh. rewrite Fsh by (apply nth_In; lia). cbn [length repeat] in Iab, Jab. inversion Iab as [|? ? ? ? Ia Ib]. inversion Ib. inversion Jab as [|? ? ? ? Ja Jb]. inversion Jb. repeat constructor; assumption.
  - destruct (split_ends is N Li HN) as (a & m & b & -> & Lm). destruct (split_ends js N Lj HN) as (a' & m' & b' & -> & Lm').
    replace (N - 1) with (S (N - 2)) by lia. rewrite on_pair_ends by assumption.
    change (a :: m ++ [b]) with ([a] ++ (m ++ [b])) in *. change (a' :: m' ++ [b']) with ([a'] ++ (m' ++ [b'])) in *.
    destruct (inr_rep_app _ _ _ _ Hi) as [Ia Im]. destruct (inr_rep_app _ _ _ _ Im) as [Im' Ib]. destruct (inr_rep_app _ _ _ _ Hj) as [Ja Jm]. destruct (inr_rep_app _ _ _ _ Jm) as [Jm' Jb].
    cbn [length repeat] in Ia, Ib, Ja, Jb. assert (Q : forall u, inr [u] [d] -> u < d) by (intros u H; inversion H; assumption). apply Q in Ia, Ib, Ja, Jb. clear Q.
    assert (Vl : valid_idx [[a; a']; [b; b']] (mshape lst)) by (rewrite Lsh; repeat constructor; tauto).
    assert (Vm : Forall2 inr (pairs m m') (map shp (repeat (eye (K:=K) d) (N - 2)))).
    { rewrite map_rep. change (shp (eye d)) with [d; d]. rewrite <- map_rep with (f := fun d => [d; d]). rewrite <- Lm. apply pairs_valid_sq; [exact Im'|]. rewrite Lm, <- Lm'. exact Jm'. }
    specialize (A2 [[a; a']; [b; b']] [pairs m m'] Vl ltac:(constructor; [exact Vm|constructor])).
    rewrite (pairs_app [a] [a'] (m ++ [b]) (m' ++ [b'])) by reflexivity. rewrite (pairs_app m m' [b] [b']) by congruence. change (pairs [a] [a']) with [[a; a']]. change (pairs [b] [b']) with [[b; b']].
    cbn [cuts interleave firstn skipn Nat.sub app zip2] in A2. cbn [app]. rewrite A2. unfold elem, agree. rewrite <- entry_amp by (auto). f_equal.
    unfold kprod at 1. cbn [fold_right]. rewrite <- (prod_eye1 (K:=K) d m m' Im' Jm' ltac:(lia)).
    rewrite (Rmul_comm (k_ring K)), (Rmul_1_l (k_ring K)). f_equal.
    clear - Lm Lm'. revert m m' Lm Lm'. induction (N - 2) as [|n IH]; intros [|u m] [|v m'] L L'; try discriminate; [reflexivity|].
    change (pairs (u :: m) (v :: m')) with ([u; v] :: pairs m m'). cbn [repeat zip2 map]. rewrite IH by (cbn in *; lia). reflexivity.
Qed.

(** ** sparse_cH *)
Lemma pow_size d n : size (repeat d n) = Nat.pow d n.
Proof. induction n as [|n IH]; [reflexivity|]. cbn [repeat Nat.pow]. rewrite size_cons, IH. reflexivity. Qed.
Lemma kron2 (a b : nd K) m1 n1 m2 n2 : shp a = [m1; n1] -> shp b = [m2; n2] ->
  ndwf (kron a b) /\ shp (kron a b) = [m1 * m2; n1 * n2] /\
  forall i1 j1 i2 j2, i1 < m1 -> j1 < n1 -> i2 < m2 -> j2 < n2 ->
    get (kron a b) [i1 * m2 + i2; j1 * n2 + j2] = (get a [i1; j1] * get b [i2; j2])%K.
Proof.
  intros Sa Sb. unfold kron. assert (Na : ndim a = 2) by (unfold ndim; rewrite Sa; reflexivity). assert (Nb : ndim b = 2) by (unfold ndim; rewrite Sb; reflexivity).
  rewrite Na, Nb. cbn [Nat.max]. assert (Pa : pad_axes 2 a = a) by (rewrite <- Na; apply pad_same). assert (Pb : pad_axes 2 b = b) by (rewrite <- Nb; apply pad_same). rewrite Pa, Pb. split; [apply wf_tab|]. split; [unfold kron_eq; cbn; rewrite Sa, Sb; reflexivity|].
  intros i1 j1 i2 j2 H1 H2 H3 H4. rewrite <- kron_eq_get; [rewrite Sb; reflexivity|rewrite Sa, Sb; reflexivity|rewrite Sa; repeat constructor; assumption|rewrite Sb; repeat constructor; assumption].
Qed.

(** The sum of matrices kept in an optional accumulator. *)
Definition hok (D : nat) (h : option (nd K)) (F : nat -> nat -> K) : Prop :=
  match h with
  | Some a => shp a = [D; D] /\ ndwf a /\ forall i j, i < D -> j < D -> get a [i; j] = F i j
  | None => forall i j, i < D -> j < D -> F i j = k0
  end.
Lemma sp_add_ok D h F m G : hok D h F -> shp m = [D; D] -> ndwf m -> (forall i j, i < D -> j < D -> get m [i; j] = G i j) ->
  exists h', sp_add h m = Ok h' /\ h' <> None /\ hok D h' (fun i j => F i j + G i j)%K.
Proof.
  intros Hh Sm Wm Gm. destruct h as [a|]; cbn [sp_add].
  - destruct Hh as (Sa & Wa & Ga). rewrite Sa, Sm, list_eqb_refl. cbn [praise_unless]. eexists. split; [reflexivity|]. split; [discriminate|].
    split; [cbn; exact Sa|]. split; [apply wf_nadd|]. intros i j Hi Hj. rewrite get_nadd by (rewrite Sa; repeat constructor; assumption). rewrite Ga, Gm by assumption. reflexivity.
  - eexists. split; [reflexivity|]. split; [discriminate|]. split; [exact Sm|]. split; [exact Wm|]. intros i j Hi Hj. rewrite Gm, Hh by assumption. ring.
Qed.
Lemma sp_sum D (A : Type) (f : A -> res (nd K)) (F : A -> nat -> nat -> K) (dflt : A) (l : list A) :
  (forall a, In a l -> exists m, f a = Ok m /\ shp m = [D; D] /\ ndwf m /\ forall i j, i < D -> j < D -> get m [i; j] = F a i j) ->
  forall h G, hok D h G -> exists h', foldM (fun h a => do m <- f a; sp_add h m) l h = Ok h' /\ (l <> [] \/ h <> None -> h' <> None) /\
    hok D h' (fun i j => G i j + bigsum (length l) (fun s => F (nth s l dflt) i j))%K.
Proof.
  induction l as [|a l IH]; intros Hl h G Hh.
  - exists h. split; [reflexivity|]. split; [intros [C|C]; congruence|]. destruct h as [x|]; cbn [hok length bigsum] in *.
    + destruct Hh as (A1 & A2 & A3). split; [exact A1|]. split; [exact A2|]. intros i j Hi Hj. rewrite A3 by assumption. unfold bigsum. cbn. ring.
    + intros i j Hi Hj. rewrite Hh by assumption. unfold bigsum. cbn. ring.
  - cbn [foldM]. destruct (Hl a (or_introl eq_refl)) as (m & E & Sm & Wm & Gm). rewrite E. cbn [bind].
    destruct (sp_add_ok D h G m _ Hh Sm Wm Gm) as (h1 & E1 & N1 & H1). rewrite E1. cbn [bind].
    destruct (IH (fun b Hb => Hl b (or_intror Hb)) h1 _ H1) as (h' & E2 & N2 & H2). exists h'. split; [exact E2|]. split; [intros _; apply N2; right; exact N1|].
    assert (Q : forall i j, (G i j + F a i j + bigsum (length l) (fun s => F (nth s l dflt) i j) = G i j + bigsum (length (a :: l)) (fun s => F (nth s (a :: l) dflt) i j))%K)
      by (intros i j; cbn [length]; rewrite bigsum_shift; cbn [nth]; ring).
    destruct h' as [x|]; cbn [hok] in *.
    + destruct H2 as (A1 & A2 & A3). split; [exact A1|]. split; [exact A2|]. intros i j Hi Hj. rewrite A3 by assumption. apply Q.
    + intros i j Hi Hj. rewrite <- Q. apply H2; assumption.
Qed.

(** A term of the right size and its matrix elements. *)
Definition term_ok (d : nat) (t : term K) : Prop :=
  match t with
  | TMpo x => mpa_ok x /\ mshape x = [[d; d]; [d; d]]
  | TMat a => ndwf a /\ shp a = [Nat.pow d 2; Nat.pow d 2]
  end.
Definition term_elem (d : nat) (t : term K) (i1 i2 j1 j2 : nat) : K :=
  match t with
  | TMpo x => elem x i1 i2 j1 j2
  | TMat a => get a [i1 * d + i2; j1 * d + j2]
  end.

Lemma to_array_global_pairs x : mpa_ok x -> two_legs (mshape x) ->
  exists a, to_array_global x = Ok a /\ ndwf a /\ shp a = leg1 (mshape x) ++ leg2 (mshape x) /\
    forall is js, inr is (leg1 (mshape x)) -> inr js (leg2 (mshape x)) -> get a (is ++ js) = entry x (pairs is js).
Proof.
  intros Hx H2. set (ds := leg1 (mshape x)). set (es := leg2 (mshape x)).
  assert (Em : mshape x = pairs ds es) by (unfold ds, es; clear - H2; induction H2 as [|p sh Hp H IH]; [reflexivity|]; destruct p as [|a [|b [|]]]; try discriminate; cbn [leg1 leg2 map]; unfold pairs; cbn [zip2]; f_equal; exact IH).
  assert (Ld : length ds = length es) by (unfold ds, es, leg1, leg2; rewrite !map_length; reflexivity).
  assert (Ln : llen x = length ds) by (rewrite <- mshape_length; unfold ds, leg1; rewrite map_length; reflexivity).
  assert (Pn : 0 < length ds) by (rewrite <- Ln; destruct Hx as [Hx _]; unfold llen; destruct (lts x); [congruence|cbn; lia]).
  assert (Sx : shp (to_array x) = concat (pairs ds es)) by (rewrite <- Em; apply shp_to_array; exact Hx).
  assert (Nd : ndim (to_array x) = length ds * 2) by (unfold ndim; rewrite Sx; apply len_flat2; exact Ld).
  unfold to_array_global, local_to_global. rewrite Ln, Nd. destruct (Nat.eqb_spec (length ds) 0); [lia|].
  rewrite Nat.sub_0_r. rewrite (Nat.mul_comm (length ds)), Nat.mod_mul by lia. cbn [Nat.eqb passert]. rewrite (Nat.mul_comm 2).
  eexists. split; [reflexivity|]. split; [apply wf_transpose|]. split; [rewrite shp_transpose, Sx; apply gather_l2g_flat2; assumption|].
  intros is js Hi Hj. pose proof (inr_length _ _ Hi) as Li. pose proof (inr_length _ _ Hj) as Lj.
  rewrite <- (gather_l2g_flat2 is js) by lia. rewrite Li.
  assert (Hn : length ds * 2 = 0 + length ds * 2 + 0) by lia.
  destruct (l2g_nth (length ds * 2) (length ds) 0 0 2 Hn Pn) as [L1 _]. pose proof (l2g_perm (length ds * 2) (length ds) 0 0 2 Hn Pn) as P2.
  rewrite get_transpose_gather; [reflexivity|exact P2|rewrite Nd; exact L1|].
  rewrite Sx. clearbody ds es. clear - Hi Hj Ld. revert es js Ld Hj. induction Hi as [|i d is ds H Hi IH]; intros [|e es] js L Hj; try discriminate; [constructor|].
  apply inr_cons_inv in Hj. destruct Hj as (j & js' & -> & Hj & Hj'). unfold pairs. cbn [zip2 concat app]. fold (pairs is js'). fold (pairs ds es).
  apply inr_cons; [exact H|]. apply inr_cons; [exact Hj|]. apply IH; [cbn in L; lia|exact Hj'].
Qed.

Lemma term_matrix_ok d t : term_ok d t -> exists m, term_matrix d t = Ok m /\ ndwf m /\ shp m = [Nat.pow d 2; Nat.pow d 2] /\
  forall i1 i2 j1 j2, i1 < d -> i2 < d -> j1 < d -> j2 < d -> get m [i1 * d + i2; j1 * d + j2] = term_elem d t i1 i2 j1 j2.
Proof.
  destruct t as [x|a]; cbn [term_ok term_matrix term_elem].
  - intros [Hx Sx]. destruct (to_array_global_pairs x Hx) as (a & E & W & S & G); [rewrite Sx; repeat constructor|]. rewrite E. cbn [bind]. rewrite Sx in S, G. cbn in S, G.
    assert (Ez : size [d ^ 2; d ^ 2] = size (shp a)) by (rewrite S; cbn [Nat.pow]; rewrite !size_cons, size_nil; ring).
    unfold reshape_py. rewrite <- Ez. change [Z.of_nat (d ^ 2); Z.of_nat (d ^ 2)] with (map Z.of_nat [d ^ 2; d ^ 2]). rewrite (resolve_shape_spec _ _ (RT_all [d ^ 2; d ^ 2])).
    eexists. split; [reflexivity|]. split; [apply wf_reshape; [exact W|exact Ez]|]. split; [reflexivity|].
    intros i1 i2 j1 j2 H1 H2 H3 H4. rewrite (get_reshape' _ _ _ ([i1; i2] ++ [j1; j2])).
    + rewrite G by (repeat constructor; assumption). reflexivity.
    + rewrite S. cbn [app ravel]. rewrite !size_cons, size_nil. cbn [Nat.pow]. ring.
  - intros [Wa Sa]. exists a. auto.
Qed.

Lemma first_of_ok (t : nd K) d r : shp t = [1; d; d; r] -> forall k, k < r -> shp (first_of t k) = [d; d] /\ ndwf (first_of t k) /\ forall i j, i < d -> j < d -> get (first_of t k) [i; j] = get t [0; i; j; k].
Proof.
  intros S k Hk. unfold first_of, ndim. rewrite S. cbn [length Nat.sub]. assert (S1 : shp (take_axis 0 0 t) = [d; d; r]) by (unfold take_axis; cbn [tab shp]; rewrite S; reflexivity).
  split; [unfold take_axis at 1; cbn [tab shp]; rewrite S1; reflexivity|]. split; [apply wf_tab|]. intros i j Hi Hj. unfold take_axis at 1. rewrite S1. cbn [remove_at]. rewrite get_tab by (repeat constructor; assumption).
  cbn [insert_at]. unfold take_axis. rewrite S. cbn [remove_at]. rewrite get_tab by (repeat constructor; assumption). reflexivity.
Qed.
Lemma second_of_ok (t : nd K) d r : shp t = [r; d; d; 1] -> forall k, k < r -> shp (second_of t k) = [d; d] /\ ndwf (second_of t k) /\ forall i j, i < d -> j < d -> get (second_of t k) [i; j] = get t [k; i; j; 0].
Proof.
  intros S k Hk. unfold second_of, ndim. rewrite S. cbn [length Nat.sub]. assert (S1 : shp (take_axis 0 k t) = [d; d; 1]) by (unfold take_axis; cbn [tab shp]; rewrite S; reflexivity).
  split; [unfold take_axis at 1; cbn [tab shp]; rewrite S1; reflexivity|]. split; [apply wf_tab|]. intros i j Hi Hj. unfold take_axis at 1. rewrite S1. cbn [remove_at]. rewrite get_tab by (repeat constructor; assumption).
  cbn [insert_at]. unfold take_axis. rewrite S. cbn [remove_at]. rewrite get_tab by (repeat constructor; (assumption || lia)). reflexivity.
Qed.
Lemma agree_delta d n p p' : inr p (repeat d n) -> inr p' (repeat d n) -> get (eye (K:=K) (Nat.pow d n)) [ravel (repeat d n) p; ravel (repeat d n) p'] = agree p p'.
Proof.
  intros H H'. rewrite get_eye by (rewrite <- pow_size; apply ravel_lt; assumption). unfold agree. destruct (list_eq_dec Nat.eq_dec p p') as [->|N]; [apply delta_eq|].
  apply delta_neq. intros C. apply N. rewrite <- (unravel_ravel (repeat d n) p), <- (unravel_ravel (repeat d n) p') by assumption. rewrite C. reflexivity.
Qed.

Lemma PfPhysics_lin a b m n : a < m -> b < n -> a * n + b < m * n.
Proof. intros. nia. Qed.
Lemma foldM_ext {A B} (f g : A -> B -> res A) l : (forall a b, In b l -> f a b = g a b) -> forall a, foldM f l a = foldM g l a.
Proof. induction l as [|b l IH]; intros H a; [reflexivity|]. cbn [foldM]. rewrite (H a b (or_introl eq_refl)). destruct (g a b); cbn [bind]; [apply IH; intros; apply H; right; assumption|reflexivity]. Qed.
Theorem sparse_cH_spec (front : list (term K)) (cyc : ltens K) d N : length front = N - 1 -> 2 <= N ->
  Forall (term_ok d) front -> mpa_ok cyc -> mshape cyc = [[d; d]; [d; d]] ->
  exists h, sparse_cH (front ++ [TMpo cyc]) d = Ok (Some h) /\ ndwf h /\ shp h = [Nat.pow d N; Nat.pow d N] /\
    forall is js, inr is (repeat d N) -> inr js (repeat d N) ->
      get h [ravel (repeat d N) is; ravel (repeat d N) js] =
        (bigsum (N - 1) (fun s => on_pair (term_elem d (nth s front (TMat dummy))) s (S s) is js) + on_pair (elem cyc) 0 (N - 1) is js)%K.
Proof.
  intros Lf HN Hf Hc Sc. unfold sparse_cH. rewrite rev_unit. rewrite app_length. cbn [length]. replace (length front + 1) with N by lia.
  rewrite removelast_last.
  set (D := Nat.pow d N).
  (* matrix elements of the summands, as functions of the flat indices *)
  set (F := fun (p : nat * term K) (i j : nat) => on_pair (term_elem d (snd p)) (fst p) (S (fst p)) (unravel (repeat d N) i) (unravel (repeat d N) j)).
  assert (Hin : forall i, i < D -> inr (unravel (repeat d N) i) (repeat d N)) by (intros i Hi; apply unravel_inr; rewrite pow_size; exact Hi).
  assert (Hrav : forall i, i < D -> ravel (repeat d N) (unravel (repeat d N) i) = i) by (intros i Hi; apply ravel_unravel; rewrite pow_size; exact Hi).
  destruct (sp_sum D _ (fun p => do t <- term_matrix d (snd p); Ok (kron (eye (d ^ fst p)) (kron t (eye (d ^ (N - fst p - 2))))))
              F (0, TMat dummy) (combine (seq 0 (N - 1)) front)) with (h := @None (nd K)) (G := fun _ _ : nat => k0 (s := K)) as (h1 & E1 & N1 & H1).
  { intros [s t] Hst. apply in_combine_l in Hst as Hs. apply in_combine_r in Hst as Ht. apply in_seq in Hs. cbn [fst snd].
    rewrite Forall_forall in Hf. destruct (term_matrix_ok d t (Hf t Ht)) as (m & Em & Wm & Sm & Gm). rewrite Em. cbn [bind].
    eexists. split; [reflexivity|].
    destruct (kron2 m (eye (d ^ (N - s - 2))) _ _ (d ^ (N - s - 2)) (d ^ (N - s - 2)) Sm eq_refl) as (W1 & S1 & G1).
    destruct (kron2 (eye (d ^ s)) _ (d ^ s) (d ^ s) _ _ eq_refl S1) as (W2 & S2 & G2).
    assert (ED : d ^ s * (d ^ 2 * d ^ (N - s - 2)) = D) by (unfold D; rewrite <- !Nat.pow_add_r; f_equal; lia).
    split; [rewrite S2, ED; reflexivity|]. split; [exact W2|].
    intros i j Hi Hj. unfold F. cbn [fst snd]. rewrite <- (Hrav i Hi), <- (Hrav j Hj) at 1. pose proof (Hin i Hi) as Ii. pose proof (Hin j Hj) as Ij.
    generalize dependent (unravel (repeat d N) i). generalize dependent (unravel (repeat d N) j). clear i j Hi Hj. intros js Ij is Ii.
    pose proof (inr_length _ _ Ii) as Li. pose proof (inr_length _ _ Ij) as Lj. rewrite repeat_length in Li, Lj.
    destruct (split_at2 is N s Li ltac:(lia)) as (p & a & b & q & -> & Lp & Lq). destruct (split_at2 js N s Lj ltac:(lia)) as (p' & a' & b' & q' & -> & Lp' & Lq').
    rewrite on_pair_split by lia. destruct (inr_rep_app _ _ _ _ Ii) as [Ip Iq]. destruct (inr_rep_app _ _ _ _ Ij) as [Jp Jq].
    change (a :: b :: q) with ([a; b] ++ q) in Iq. change (a' :: b' :: q') with ([a'; b'] ++ q') in Jq.
    destruct (inr_rep_app _ _ _ _ Iq) as [Iab Iq']. destruct (inr_rep_app _ _ _ _ Jq) as [Jab Jq'].
    rewrite Lp in Ip. rewrite Lp' in Jp. rewrite Lq in Iq'. rewrite Lq' in Jq'. cbn [length repeat] in Iab, Jab.
    assert (Ab : a < d /\ b < d) by (inversion Iab as [|? ? ? ? Q1 Q2]; inversion Q2; auto). assert (Ab' : a' < d /\ b' < d) by (inversion Jab as [|? ? ? ? Q1 Q2]; inversion Q2; auto).
    assert (RV : forall p a b q, inr p (repeat d s) -> inr [a; b] [d; d] -> ravel (repeat d N) (p ++ a :: b :: q) = ravel (repeat d s) p * (d ^ 2 * d ^ (N - s - 2)) + ((a * d + b) * d ^ (N - s - 2) + ravel (repeat d (N - s - 2)) q)).
    { intros p0 a0 b0 q0 Hp Hab.
      replace (repeat d N) with (repeat d s ++ [d; d] ++ repeat d (N - s - 2)) by (rewrite (app_assoc (repeat d s)); change [d; d] with (repeat d 2); rewrite <- !repeat_app; f_equal; lia).
      rewrite ravel_app by exact Hp. change (a0 :: b0 :: q0) with ([a0; b0] ++ q0). rewrite ravel_app by exact Hab. rewrite size_app, pow_size. cbn [ravel]. rewrite !size_cons, size_nil. cbn [Nat.pow].
      generalize (d ^ (N - s - 2)). intros m0. rewrite !Nat.mul_1_r, Nat.add_0_r. lia. }
    assert (Hab : forall a b, a < d -> b < d -> a * d + b < d ^ 2) by (clear; intros; cbn [Nat.pow]; nia).
    rewrite !RV by assumption. rewrite G2.
    2,3: rewrite <- pow_size; apply ravel_lt; assumption.
    2,3: apply (PfPhysics_lin); [apply Hab; tauto|rewrite <- pow_size; apply ravel_lt; assumption].
    rewrite G1 by (first [apply Hab; tauto|rewrite <- pow_size; apply ravel_lt; assumption]).
    rewrite Gm by tauto. rewrite !agree_delta by assumption. ring. }
  { cbn [hok]. intros. reflexivity. }
  rewrite (foldM_ext (cH_step d N) (fun h a => do m <- (fun p => do t <- term_matrix d (snd p); Ok (kron (eye (d ^ fst p)) (kron t (eye (d ^ (N - fst p - 2)))))) a; sp_add h m))
    by (intros h0 [s t] _; unfold cH_step; cbn [fst snd]; destruct (term_matrix d t); reflexivity).
  rewrite E1. cbn [bind]. destruct (Nat.ltb_spec 1 N); [|lia]. cbn [praise_unless].
  (* the two tensors of the cyclic term *)
  assert (Lc : llen cyc = 2) by (rewrite <- mshape_length, Sc; reflexivity).
  destruct Hc as [Hne Hb]. unfold llen, mshape, ranks in *. destruct (lts cyc) as [|t0 [|t1 [|]]] eqn:El; try discriminate.
  cbn [map] in Sc. injection Sc as P0 P1. cbn [bonds] in Hb. destruct Hb as (O0 & L0 & (O1 & L1 & R1)).
  set (r := rdim t0). cbn [removelast map] in *.
  assert (S0 : shp t0 = [1; d; d; r]) by (rewrite (lt_ok_shp t0 O0), P0, L0; reflexivity).
  assert (S1 : shp t1 = [r; d; d; 1]) by (rewrite (lt_ok_shp t1 O1), P1, R1, L1; reflexivity).
  set (C := fun (k i j : nat) => let is := unravel (repeat d N) i in let js := unravel (repeat d N) j in
     on_pair (fun i1 i2 j1 j2 => get t0 [O; i1; j1; k] * get t1 [k; i2; j2; O])%K 0 (N - 1) is js).
  destruct (sp_sum D _ (fun i => Ok (kron (first_of t0 i) (kron (eye (d ^ (N - 2))) (second_of t1 i)))) C 0 (seq 0 r)) with (h := h1)
    (G := fun i j => bigsum (N - 1) (fun s => F (nth s (combine (seq 0 (N - 1)) front) (0, TMat dummy)) i j)) as (h2 & E2 & N2 & H2).
  { intros k Hk. apply in_seq in Hk. eexists. split; [reflexivity|].
    destruct (first_of_ok t0 d r S0 k ltac:(lia)) as (Sf & Wf & Gf). destruct (second_of_ok t1 d r S1 k ltac:(lia)) as (Ss & Ws & Gs).
    destruct (kron2 (eye (d ^ (N - 2))) (second_of t1 k) (d ^ (N - 2)) (d ^ (N - 2)) _ _ eq_refl Ss) as (W1 & T1 & G1).
    destruct (kron2 (first_of t0 k) _ _ _ _ _ Sf T1) as (W2 & T2 & G2).
    assert (ED : d * (d ^ (N - 2) * d) = D).
    { unfold D. replace N with (1 + ((N - 2) + 1)) at 2 by lia. rewrite !Nat.pow_add_r, Nat.pow_1_r. reflexivity. }
    split; [rewrite T2, ED; reflexivity|]. split; [exact W2|].
    intros i j Hi Hj. unfold C. cbn zeta. rewrite <- (Hrav i Hi), <- (Hrav j Hj) at 1. pose proof (Hin i Hi) as Ii. pose proof (Hin j Hj) as Ij.
    generalize dependent (unravel (repeat d N) i). generalize dependent (unravel (repeat d N) j). clear i j Hi Hj. intros js Ij is Ii.
    pose proof (inr_length _ _ Ii) as Li. pose proof (inr_length _ _ Ij) as Lj. rewrite repeat_length in Li, Lj.
    destruct (split_ends is N Li HN) as (a & m & b & -> & Lm). destruct (split_ends js N Lj HN) as (a' & m' & b' & -> & Lm').
    replace (N - 1) with (S (N - 2)) by lia. rewrite on_pair_ends by assumption.
    assert (SP : forall a m b, length m = N - 2 -> inr (a :: m ++ [b]) (repeat d N) -> a < d /\ inr m (repeat d (N - 2)) /\ b < d /\
       ravel (repeat d N) (a :: m ++ [b]) = a * (d ^ (N - 2) * d) + (ravel (repeat d (N - 2)) m * d + b)).
    { clear - HN. intros a m b Lm Hi. assert (ER : repeat d N = d :: repeat d (N - 2) ++ [d]).
      { replace N with (1 + ((N - 2) + 1)) at 1 by lia. rewrite !repeat_app. reflexivity. }
      rewrite ER in *. inversion Hi as [|? ? ? ? H1 H2]; subst. apply inr_app_inv in H2. destruct H2 as (m2 & b2 & Em2 & H2 & H3). pose proof (inr_length _ _ H2) as L2. rewrite repeat_length in L2. apply app_inv_len in Em2; [|lia]. destruct Em2 as [<- <-]. inversion H3 as [|? ? ? ? H4 _]; subst.
      split; [exact H1|]. split; [exact H2|]. split; [exact H4|]. cbn [ravel]. rewrite ravel_app by exact H2. rewrite size_app, pow_size. cbn [ravel]. rewrite size_cons, size_nil. generalize (d ^ (N - 2)). intros. ring. }
    destruct (SP a m b Lm Ii) as (Ha & Hm & Hb & ->). destruct (SP a' m' b' Lm' Ij) as (Ha' & Hm' & Hb' & ->).
    assert (Rm : ravel (repeat d (N - 2)) m < d ^ (N - 2)) by (rewrite <- pow_size; apply ravel_lt; assumption).
    assert (Rm' : ravel (repeat d (N - 2)) m' < d ^ (N - 2)) by (rewrite <- pow_size; apply ravel_lt; assumption).
    rewrite G2; [|assumption|assumption|apply PfPhysics_lin; assumption|apply PfPhysics_lin; assumption].
    rewrite G1 by assumption. rewrite Gf, Gs by assumption. rewrite agree_delta by assumption. ring. }
  { destruct h1 as [a|]; cbn [hok] in *.
    - destruct H1 as (A1 & A2 & A3). split; [exact A1|]. split; [exact A2|]. intros i j Hi Hj. rewrite A3 by assumption. rewrite combine_length, seq_length, Lf, Nat.min_id. ring.
    - exfalso. apply N1; [|reflexivity]. left. destruct front; [cbn in Lf; lia|]. destruct N as [|[|N]]; [lia|lia|]. discriminate. }
  cbn [tl map]. rewrite L1. fold r.
    cbn [bind] in E2.
  rewrite E2. destruct h2 as [h|]; [|exfalso; apply N2; [right; apply N1; left; destruct front; [cbn in Lf; lia|]; destruct N as [|[|N]]; [lia|lia|]; discriminate|reflexivity]].
  destruct H2 as (A1 & A2 & A3). exists h. split; [reflexivity|]. split; [exact A2|]. split; [exact A1|].
  intros is js Hi Hj. assert (Ri : ravel (repeat d N) is < D) by (unfold D; rewrite <- pow_size; apply ravel_lt; exact Hi). assert (Rj : ravel (repeat d N) js < D) by (unfold D; rewrite <- pow_size; apply ravel_lt; exact Hj).
  rewrite A3 by assumption. f_equal.
  - apply bigsum_ext. intros s Hs. rewrite combine_nth by (rewrite seq_length; lia). rewrite seq_nth by exact Hs. unfold F. cbn [fst snd Nat.add]. rewrite !unravel_ravel by assumption. reflexivity.
  - rewrite seq_length. rewrite (bigsum_ext r _ (fun k => on_pair (fun i1 i2 j1 j2 => get t0 [O; i1; j1; k] * get t1 [k; i2; j2; O])%K 0 (N - 1) is js)).
    2:{ intros k Hk. rewrite seq_nth by exact Hk. unfold C. cbn [Nat.add]. rewrite !unravel_ravel by assumption. reflexivity. }
    unfold on_pair. destruct (forallb _ _); [|apply bigsum_zero; reflexivity].
    unfold elem. rewrite entry_amp.
    + rewrite El. cbn [amp]. apply bigsum_ext. intros k Hk. rewrite R1, bigsum_1. unfold ent. cbn [app]. unfold delta. cbn. ring.
    + split; [congruence|]. rewrite El. cbn [bonds]. auto.
    + unfold mshape. rewrite El. cbn [map]. rewrite P0, P1. pose proof (inr_length _ _ Hi) as Li. pose proof (inr_length _ _ Hj) as Lj. rewrite repeat_length in Li, Lj.
      assert (Hn : forall l k, inr l (repeat d N) -> k < N -> nth k l 0 < d) by (intros l k Hl Hk; pose proof (nth_inr l _ k Hl ltac:(rewrite repeat_length; lia)) as Q; rewrite nth_rep in Q by exact Hk; exact Q).
      repeat constructor; apply Hn; (assumption || lia).
Qed.

(** ** The local terms of the XY model *)
Definition xx (i j : nat) : K := if Nat.eqb (i + j) 1 then k1 else k0.
Definition yy (ki : K) (i j : nat) : K := match i, j with 0, 1 => (- ki)%K | 1, 0 => ki | _, _ => k0 end.
Theorem cXY_term_spec (ki c1 c2 : K) : exists t, cXY_term ki c1 c2 = Ok t /\ mpa_ok t /\ mshape t = [[2; 2]; [2; 2]] /\
  forall i1 i2 j1 j2, i1 < 2 -> i2 < 2 -> j1 < 2 -> j2 < 2 ->
    elem t i1 i2 j1 j2 = (c1 * (xx i1 j1 * xx i2 j2) + c2 * (yy ki i1 j1 * yy ki i2 j2))%K.
Proof.
  unfold cXY_term. eexists. split; [cbv -[car kadd kmul ksub kopp k0 k1]; reflexivity|].
  split; [apply mpa_okb_ok; vm_compute; reflexivity|]. split; [vm_compute; reflexivity|].
  intros i1 i2 j1 j2 H1 H2 H3 H4.
  assert (C : forall i, i < 2 -> i = 0 \/ i = 1) by (intros; lia).
  destruct (C i1 H1) as [->| ->], (C i2 H2) as [->| ->], (C j1 H3) as [->| ->], (C j2 H4) as [->| ->]; cbv -[car kadd kmul ksub kopp k0 k1]; ring.
Qed.

(** ** The documented numbering of the terms *)
Definition cyclic_sum (terms : list (ltens K)) is js : K :=
  bigsum (length terms) (fun s => on_pair (elem (nth s terms (mkLt [] 0 0))) s (Nat.modulo (S s) (length terms)) is js).
Lemma on_pair_swap f a b is js : on_pair f a b is js = on_pair (fun i1 i2 j1 j2 => f i2 i1 j2 j1) b a is js.
Proof.
  unfold on_pair. assert (E : forall l, forallb (fun k => (k =? a) || (k =? b) || (nth k is 0 =? nth k js 0)) l = forallb (fun k => (k =? b) || (k =? a) || (nth k is 0 =? nth k js 0)) l).
  { induction l as [|k l IH]; [reflexivity|]. cbn [forallb]. rewrite IH. rewrite (orb_comm (k =? a)). reflexivity. }
  rewrite E. reflexivity.
Qed.
Lemma last_nth_ {A} (l : list A) d : last l d = nth (length l - 1) l d.
Proof. induction l as [|a [|b l] IH]; [reflexivity|reflexivity|]. change (last (a :: b :: l) d) with (last (b :: l) d). rewrite IH. cbn [length]. replace (S (S (length l)) - 1) with (S (S (length l) - 1)) by lia. reflexivity. Qed.
Lemma cyclic_sum_sym (terms : list (ltens K)) d N is js : length terms = N -> 2 <= N ->
  (forall i1 i2 j1 j2, i1 < d -> i2 < d -> j1 < d -> j2 < d ->
     elem (last terms (mkLt [] 0 0)) i1 i2 j1 j2 = elem (last terms (mkLt [] 0 0)) i2 i1 j2 j1) ->
  inr is (repeat d N) -> inr js (repeat d N) ->
  (bigsum (N - 1) (fun s => on_pair (elem (nth s terms (mkLt [] 0 0))) s (S s) is js) + on_pair (elem (last terms (mkLt [] 0 0))) O (N - 1) is js)%K = cyclic_sum terms is js.
Proof.
  intros L HN Hs Hi Hj. unfold cyclic_sum. rewrite L. replace N with (S (N - 1)) at 3 by lia. cbn [bigsum]. f_equal.
  - apply bigsum_ext. intros s Hs'. rewrite Nat.mod_small by lia. reflexivity.
  - replace (S (N - 1)) with N by lia. rewrite Nat.mod_same by lia. rewrite last_nth_, L in *. rewrite on_pair_swap. unfold on_pair. destruct (forallb _ _); [|reflexivity].
    assert (Hn : forall l k, inr l (repeat d N) -> k < N -> nth k l 0 < d) by (intros l k Hl Hk; pose proof (nth_inr l _ k Hl ltac:(rewrite repeat_length; lia)) as Q; rewrite nth_rep in Q by exact Hk; exact Q).
    apply Hs; apply Hn; (assumption || lia).
Qed.
Lemma sparse_cH_last_matrix d (front : list (term K)) a : 1 <= length front -> Forall (term_ok d) front -> sparse_cH (front ++ [TMat a]) d = Err AttributeError.
Proof.
  intros Lf Hf. unfold sparse_cH. rewrite rev_unit, removelast_last, app_length. cbn [length]. set (N := length front + 1). 
  destruct (sp_sum (Nat.pow d N) _ (fun p => do t <- term_matrix d (snd p); Ok (kron (eye (d ^ fst p)) (kron t (eye (d ^ (N - fst p - 2))))))
              (fun p i j => match term_matrix d (snd p) with Ok t => get (kron (eye (d ^ fst p)) (kron t (eye (d ^ (N - fst p - 2))))) [i; j] | _ => k0 end)
              (0, TMat dummy) (combine (seq 0 (N - 1)) front)) with (h := @None (nd K)) (G := fun _ _ : nat => k0 (s := K)) as (h1 & E1 & _).
  - intros [s t] Hst. apply in_combine_l in Hst as Hs. apply in_combine_r in Hst as Ht. apply in_seq in Hs. cbn [fst snd].
    rewrite Forall_forall in Hf. destruct (term_matrix_ok d t (Hf t Ht)) as (m & Em & Wm & Sm & Gm). rewrite Em. cbn [bind].
    eexists. split; [reflexivity|].
    destruct (kron2 m (eye (d ^ (N - s - 2))) _ _ (d ^ (N - s - 2)) (d ^ (N - s - 2)) Sm eq_refl) as (W1 & S1 & G1).
    destruct (kron2 (eye (d ^ s)) _ (d ^ s) (d ^ s) _ _ eq_refl S1) as (W2 & S2 & G2).
    assert (ED : d ^ s * (d ^ 2 * d ^ (N - s - 2)) = d ^ N) by (rewrite <- !Nat.pow_add_r; f_equal; lia).
    split; [rewrite S2, ED; reflexivity|]. split; [exact W2|]. reflexivity.
  - cbn [hok]. reflexivity.
  - rewrite (foldM_ext (cH_step d N) (fun h a => do m <- (fun p => do t <- term_matrix d (snd p); Ok (kron (eye (d ^ fst p)) (kron t (eye (d ^ (N - fst p - 2)))))) a; sp_add h m))
      by (intros h0 [s t] _; unfold cH_step; cbn [fst snd]; destruct (term_matrix d t); reflexivity).
    rewrite E1. cbn [bind]. destruct (Nat.ltb_spec 1 N); [reflexivity|]. unfold N in *. lia.
Qed.
End Phys.
