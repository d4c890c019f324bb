(** Reductions of states are states, and consistent with each other (C87).
    [win ds w] are the dimensions of the sites of the window w, [squares ds] the shape of an MPO with
    equal dimensions of row and column legs, [hermitian], [op_positive] and [trace_of] ([PfRedStates])
    are the usual notions for the matrix of all entries. *)
From Coq Require Import Reals.
From Verif Require Import Oracles PfRedStates PfEig3 Props_States Props_Canon Props_Linalg Examples.
Open Scope nat_scope.

(** reductions_mpo: the trace stays the same, and hermitian operators have hermitian reductions. *)
Theorem C87_mpo (K : StarRing) (x : ltens K) ds (ws : list (nat * nat)) :
  mpa_ok x -> mshape x = squares ds -> Forall (fun w => fst w < snd w <= llen x) ws ->
  exists t zs, mtrace x (PTAll 0 1) = Ok t /\
    reductions_mpo x None (Some (map Z.of_nat (map fst ws))) (Some (map Z.of_nat (map snd ws))) = Ok zs /\
    Forall2 (fun w z => mpa_ok z /\ mshape z = squares (win ds w) /\ mtrace z (PTAll 0 1) = Ok t /\ (hermitian x ds -> hermitian z (win ds w))) ws zs.
Proof.
  intros Hx Sx Hw. assert (H2 : two_legs (mshape x)) by (rewrite Sx; apply Forall_forall; intros p Hp; apply in_map_iff in Hp; destruct Hp as (? & <- & _); reflexivity).
  destruct (C38_reductions_mpo K x ws Hx H2 Hw) as (zs & E & F). exists (trace_of x ds), zs. split; [exact (mtrace_sq x ds Hx Sx)|]. split; [exact E|].
  clear E. induction F as [|w z ws zs P F IH]; [constructor|]. apply Forall_cons_iff in Hw. destruct Hw as [Hw Hws]. constructor; [|apply IH; exact Hws].
  destruct (ptrace_sq x z ds w Sx P) as (Hz & Sz & _). split; [exact Hz|]. split; [exact Sz|]. split.
  - rewrite (mtrace_sq z _ Hz Sz). f_equal. apply ptrace_trace; [exact Sx|lia|exact P].
  - apply ptrace_hermitian; [exact Sx|lia|exact P].
Qed.
Print Assumptions C87_mpo.
(** Positive operators have positive reductions. *)
Theorem C87_mpo_positive (x : ltens CS) ds (ws : list (nat * nat)) :
  mpa_ok x -> mshape x = squares ds -> Forall (fun w => fst w < snd w <= llen x) ws -> op_positive x ds ->
  exists zs, reductions_mpo x None (Some (map Z.of_nat (map fst ws))) (Some (map Z.of_nat (map snd ws))) = Ok zs /\
    Forall2 (fun w z => op_positive z (win ds w)) ws zs.
Proof.
  intros Hx Sx Hw Hp. assert (H2 : two_legs (mshape x)) by (rewrite Sx; apply Forall_forall; intros p Hq; apply in_map_iff in Hq; destruct Hq as (? & <- & _); reflexivity).
  destruct (C38_reductions_mpo CS x ws Hx H2 Hw) as (zs & E & F). exists zs. split; [exact E|].
  clear E. induction F as [|w z ws zs P F IH]; [constructor|]. apply Forall_cons_iff in Hw. destruct Hw as [Hw Hws]. constructor; [|apply IH; exact Hws].
  apply (ptrace_positive x); [exact Sx|lia|exact P|exact Hp].
Qed.
Print Assumptions C87_mpo_positive.
(** Reducing a reduction (sites c, ..., d - 1 of the window from a to b) is reducing once. *)
Theorem C87_mpo_nested (K : StarRing) (x : ltens K) ds a b c d :
  mpa_ok x -> mshape x = squares ds -> a < b <= llen x -> c < d <= b - a ->
  exists z u y, reductions_mpo x None (Some [Z.of_nat a]) (Some [Z.of_nat b]) = Ok [z] /\
    reductions_mpo z None (Some [Z.of_nat c]) (Some [Z.of_nat d]) = Ok [u] /\
    reductions_mpo x None (Some [Z.of_nat (a + c)]) (Some [Z.of_nat (a + d)]) = Ok [y] /\
    mshape u = mshape y /\ forall is js, inr is (win ds (a + c, a + d)) -> inr js (win ds (a + c, a + d)) -> entry u (pairs is js) = entry y (pairs is js).
Proof.
  intros Hx Sx Hab Hcd.
  assert (T : forall l : list nat, two_legs (squares l)) by (intros l; apply Forall_forall; intros p Hp; apply in_map_iff in Hp; destruct Hp as (? & <- & _); reflexivity).
  assert (G : forall (v : ltens K) l s e, mpa_ok v -> mshape v = squares l -> s < e <= llen v -> exists z, reductions_mpo v None (Some [Z.of_nat s]) (Some [Z.of_nat e]) = Ok [z] /\ is_ptrace v (s, e) z).
  { intros v l s e Hv Sv Hse. destruct (C38_reductions_mpo K v [(s, e)] Hv ltac:(rewrite Sv; apply T) ltac:(apply Forall_cons; [cbn; lia|apply Forall_nil])) as (zs & E & F).
    inversion F as [|? z ? zs' P F']; subst. inversion F'; subst. exists z. split; [exact E|exact P]. }
  assert (Ld : length ds = llen x) by (rewrite <- mshape_length, Sx; unfold squares; rewrite map_length; reflexivity).
  destruct (G x ds a b Hx Sx Hab) as (z & Ez & Pz). destruct (ptrace_sq x z ds _ Sx Pz) as (Hz & Sz & _).
  assert (Lz : llen z = b - a).
  { rewrite <- mshape_length, Sz. unfold squares, win. cbn [fst snd]. rewrite map_length, firstn_length, skipn_length. lia. }
  destruct (G z _ c d Hz Sz ltac:(lia)) as (u & Eu & Pu). destruct (G x ds (a + c) (a + d) Hx Sx ltac:(lia)) as (y & Ey & Py).
  exists z, u, y. split; [exact Ez|]. split; [exact Eu|]. split; [exact Ey|]. apply (ptrace_nested x z u y ds a b c d); try assumption; lia.
Qed.
Print Assumptions C87_mpo_nested.
(** The reductions of an MPS are positive and have trace <x|x>. *)
Theorem C87_mps (qr : nd CS -> res (nd CS * nd CS)) (x : ltens CS) ds (ws : list (nat * nat)) ms :
  qr_sound qr -> mpa_pos x -> mshape x = singles ds -> Forall (fun w => fst w < snd w <= llen x) ws ->
  reductions_mps_as_mpo qr x None (Some (map Z.of_nat (map fst ws))) (Some (map Z.of_nat (map snd ws))) = Ok ms ->
  Forall2 (fun w m => mpa_ok m /\ mshape m = squares (win ds w) /\ op_positive m (win ds w) /\ hermitian m (win ds w) /\ mtrace m (PTAll 0 1) = Ok (norm2_of x)) ws ms.
Proof.
  intros Hq Hx Sx Hw E.
  assert (H1 : one_leg (mshape x)) by (rewrite Sx; apply Forall_forall; intros p Hp; apply in_map_iff in Hp; destruct Hp as (i & <- & _); reflexivity).
  pose proof (outc_inv _ _ _ _ (C39_mps_as_mpo CS qr x ws Hq Hx H1 Hw) E) as F. clear E.
  assert (El : leg1 (mshape x) = ds) by (rewrite Sx; unfold leg1, singles; rewrite map_map; cbn; apply map_id).
  induction F as [|w m ws ms P F IH]; [constructor|]. apply Forall_cons_iff in Hw. destruct Hw as [Hw Hws]. constructor; [|apply IH; exact Hws].
  pose proof (mps_reduction_positive x m w P) as Pp. rewrite El in Pp. destruct P as (Hm & Sm & V). rewrite El in Sm, V.
  split; [exact Hm|]. split; [exact Sm|]. split; [exact Pp|]. split; [apply positive_hermitian; exact Pp|].
  rewrite (mtrace_sq m _ Hm Sm). f_equal. unfold norm2_of, inner_of. rewrite Sx, msums_singles. rewrite (win_split ds w ltac:(lia)) at 2. rewrite msum_app.
  transitivity (msum (win ds w) (fun is => msum (firstn (fst w) ds) (fun ks => msum (skipn (snd w) ds) (fun ms => entry x (singles (ks ++ is ++ ms)) * kconj (entry x (singles (ks ++ is ++ ms))))))%K).
  - apply msum_ext. intros is Hi. apply V; assumption.
  - rewrite msum_swap. apply msum_ext. intros ks _. rewrite msum_app. apply msum_ext. intros is _. apply msum_ext. intros js _. apply (Rmul_comm (k_ring CS)).
Qed.
Print Assumptions C87_mps.
(** The operator of a PMPS is positive and has trace <x|x>. *)
Theorem C87_pmps (x : ltens CS) : mpa_ok x -> two_legs (mshape x) ->
  exists z, pmps_to_mpo x = Ok z /\ op_positive z (leg1 (mshape x)) /\ hermitian z (leg1 (mshape x)) /\ mtrace z (PTAll 0 1) = Ok (norm2_of x).
Proof.
  intros Hx H2. destruct (pmps_to_mpo_spec x Hx H2) as (z & E & Hz & Sz & _ & _ & V). exists z. split; [exact E|].
  assert (P : op_positive z (leg1 (mshape x))) by (apply (dmat_positive x); exact V). split; [exact P|]. split; [apply positive_hermitian; exact P|].
  rewrite (mtrace_sq z _ Hz Sz). f_equal. unfold norm2_of, inner_of. rewrite (msums_pairs _ _ H2). apply msum_ext. intros is Hi. rewrite V by assumption. unfold dmat. apply msum_ext. intros cs _.
  apply (Rmul_comm (k_ring CS)).
Qed.
Print Assumptions C87_pmps.

(** A three-site MPO and its reductions to the sites 0, 1 and 1, 2, and the last site of the latter. *)
Example C87_ex : mpa_ok ex_o /\ mshape ex_o = squares [2; 2; 2] /\ mtrace ex_o (PTAll 0 1) = Ok (g 32 17) /\
  match reductions_mpo ex_o None (Some [0; 1]%Z) (Some [2; 3]%Z) with
  | Ok [z1; z2] => mtrace z1 (PTAll 0 1) = Ok (g 32 17) /\ mtrace z2 (PTAll 0 1) = Ok (g 32 17) /\
      match reductions_mpo z2 None (Some [1]%Z) (Some [2]%Z), reductions_mpo ex_o None (Some [2]%Z) (Some [3]%Z) with
      | Ok [u], Ok [y] => to_array u = to_array y /\ get (to_array u) [0; 1] <> k0 | _, _ => False end
  | _ => False end.
Proof. split; [apply ex_ok; cbn; auto|]. vm_compute. repeat split; discriminate. Qed.
(** The MPS 3|000> + 2i|111>: positive reductions of trace 13. *)
Example C87_mps_ex : mpa_pos ex_ghz /\ mshape ex_ghz = singles [2; 2; 2] /\ norm2_of ex_ghz = gi 13 /\
  match reductions_mps_as_mpo qr_gz ex_ghz None (Some [0; 1]%Z) (Some [2; 3]%Z) with
  | Ok [m1; m2] => mtrace m1 (PTAll 0 1) = Ok (gi 13) /\ mtrace m2 (PTAll 0 1) = Ok (gi 13) | _ => False end.
Proof. split; [exact ghz_pos|]. split; [reflexivity|]. split; [vm_compute; reflexivity|]. vm_compute. auto. Qed.
(** A positive operator which is not diagonal. *)
Definition ex_pc : ltens CS := mkLt [mkNd [1;2;2;1] [k1; k1; k0; k1]; mkNd [1;2;2;1] [k1; k0; k1; k1]] 0 2.
Example C87_positive_ex : exists z, pmps_to_mpo ex_pc = Ok z /\ mpa_ok z /\ mshape z = squares [2; 2] /\ op_positive z [2; 2] /\ mtrace z (PTAll 0 1) = Ok (toC (IZR 9)).
Proof.
  assert (H : mpa_ok ex_pc) by (split; [discriminate|repeat constructor; cbn; lia]). assert (H2 : two_legs (mshape ex_pc)) by repeat constructor.
  destruct (C87_pmps ex_pc H H2) as (z & E & P & _ & T). destruct (pmps_to_mpo_spec ex_pc H H2) as (z' & E' & Hz & Sz & _). rewrite E in E'. injection E' as <-.
  exists z. split; [exact E|]. split; [exact Hz|]. split; [exact Sz|]. split; [exact P|]. rewrite T. f_equal.
  apply cplx_eq; lazy -[Rplus Rmult Rminus Ropp IZR]; ring.
Qed.

(** reductions_pmps keeps the norm: every reduction z has <z|z> = <x|x>, so pmps_to_mpo(z) has the same trace. *)
Lemma norm2_dmat (K : StarRing) (x : ltens K) : two_legs (mshape x) -> norm2_of x = msum (leg1 (mshape x)) (fun is => dmat x is is).
Proof. intros H2. unfold norm2_of, inner_of. rewrite (msums_pairs _ _ H2). apply msum_ext. intros is _. unfold dmat. apply msum_ext. intros cs _. apply (Rmul_comm (k_ring K)). Qed.
Theorem C87_pmps_norm (K : StarRing) (qr : nd K -> res (nd K * nd K)) (x : ltens K) (ws : list (nat * nat)) zs y :
  qr_sound qr -> mpa_pos x -> cform_wk x -> canon_true x -> two_legs (mshape x) -> Forall (fun w => fst w < snd w <= llen x) ws ->
  reductions_pmps qr x None (Some (map Z.of_nat (map fst ws))) (Some (map Z.of_nat (map snd ws))) = Ok (zs, y) ->
  length zs = length ws /\ Forall (fun z => norm2_of z = norm2_of x) zs.
Proof.
  intros Hq Hx Hc Ht H2 Hw E. pose proof (outc_inv _ _ _ _ (C39_reductions_pmps K qr x ws Hq Hx Hc Ht H2 Hw) E) as (F & _). cbn [fst] in F. clear E.
  induction F as [|w z ws zs P F IH]; [split; constructor|]. apply Forall_cons_iff in Hw. destruct Hw as [Hw Hws]. destruct (IH Hws) as [IL IF]. split; [cbn; congruence|]. constructor; [|exact IF].
  destruct P as (_ & _ & T & El & _ & V). rewrite (norm2_dmat K z T), (norm2_dmat K x H2). set (ds := leg1 (mshape x)) in *. change (leg1 (mshape z) = win ds w) in El.
  rewrite (win_split ds w ltac:(lia)) at 1. rewrite msum_app, El.
  transitivity (msum (win ds w) (fun is => msum (firstn (fst w) ds) (fun ks => msum (skipn (snd w) ds) (fun ms => dmat x (ks ++ is ++ ms) (ks ++ is ++ ms))))).
  - apply msum_ext. intros is Hi. apply V; rewrite El; exact Hi.
  - rewrite msum_swap. apply msum_ext. intros ks _. rewrite msum_app. reflexivity.
Qed.
Print Assumptions C87_pmps_norm.
Example C87_pmps_ex : mpa_pos ex_p /\ cform_wk ex_p /\ canon_true ex_p /\ two_legs (mshape ex_p) /\
  match reductions_pmps qr_gz ex_p None (Some [0; 1]%Z) (Some [1; 3]%Z) with Ok ([z1; z2], _) => norm2_of z1 = norm2_of ex_p /\ norm2_of z2 = norm2_of ex_p | _ => False end /\ norm2_of ex_p <> k0.
Proof. destruct ex_p_ok as (A & B & C & D). split; [exact A|]. split; [exact B|]. split; [exact C|]. split; [exact D|]. vm_compute. repeat split; discriminate. Qed.

(** Expectation values of hermitian operators are real, those of positive operators are not negative. *)
Theorem C87_expectation_real (K : StarRing) (h x : ltens K) ds : mpa_ok h -> mpa_ok x -> mshape h = squares ds -> mshape x = singles ds -> hermitian h ds ->
  exists e, sandwich h x None = Ok e /\ kconj e = e.
Proof.
  intros Hh Hx Sh Sx H. eexists. split; [apply (C11_sandwich_default K h x ds Hh Hx); [rewrite Sh; apply pairs_diag|exact Sx]|].
  rewrite msum_conj. rewrite (msum_ext ds _ (fun is => msum ds (fun js => kconj (entry x (singles js)) * entry h (pairs js is) * entry x (singles is)))%K).
  - apply msum_swap.
  - intros is Hi. rewrite msum_conj. apply msum_ext. intros js Hj. rewrite !(kconj_mul K), (kconj_invol K). rewrite (H is js Hi Hj).
    rewrite (Rmul_comm (k_ring K)), (Rmul_comm (k_ring K) (entry x _)). apply (Rmul_assoc (k_ring K)).
Qed.
Print Assumptions C87_expectation_real.
Theorem C87_expectation_positive (h x : ltens CS) ds : mpa_ok h -> mpa_ok x -> mshape h = squares ds -> mshape x = singles ds -> op_positive h ds ->
  exists e, sandwich h x None = Ok e /\ cnonneg e.
Proof.
  intros Hh Hx Sh Sx H. eexists. split; [apply (C11_sandwich_default CS h x ds Hh Hx); [rewrite Sh; apply pairs_diag|exact Sx]|].
  exact (H (fun is => entry x (singles is))).
Qed.
Print Assumptions C87_expectation_positive.
Definition ex_herm : ltens GZ := mkLt [mk [1;2;2;1] [g 2 0; g 1 1; g 1 (-1); g 3 0]; mk [1;2;2;1] [g 1 0; g 0 2; g 0 (-2); g 5 0]; mk [1;2;2;1] [g 1 0; g 0 0; g 0 0; g (-1) 0]] 0 3.
Example C87_expectation_ex : mpa_ok ex_herm /\ mshape ex_herm = squares [2; 2; 2] /\ mshape ex_s = singles [2; 2; 2] /\
  hermitian ex_herm [2; 2; 2] /\
  match sandwich ex_herm ex_s None with Ok e => kconj e = e /\ e <> k0 | Err _ => False end.
Proof.
  split; [split; [discriminate|repeat constructor; cbn; lia]|]. split; [reflexivity|]. split; [reflexivity|]. split.
  - intros is js Hi Hj.
    repeat match goal with H : inr _ (_ :: _) |- _ => apply inr_cons_inv in H; destruct H as (? & ? & -> & ? & H) | H : inr _ [] |- _ => inversion H; clear H; subst end.
    repeat match goal with H : ?n < 2 |- _ => destruct n as [|[|n]]; [clear H|clear H|lia] end; vm_compute; reflexivity.
  - vm_compute. split; [reflexivity|discriminate].
Qed.
