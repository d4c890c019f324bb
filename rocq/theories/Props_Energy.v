(** Expectation values of sums of local operators (C85). *)
From Verif Require Import Oracles PfBounds PfHistory PfStates PfStates2 PfEmbed PfEig3 PfEnergy Props_Canon Props_Build Props_Linalg Props_States Examples.

(** [trace_prod d h r] ([PfEnergy]) is tr(h r).  The expectation value of the MPO built by
    local_sum from the operators [hs] placed on the windows [ws] is the sum of tr(h_j rho_j),
    with the reduced states rho_j which reductions_mps_as_mpo yields for these windows. *)
Theorem C85_energy (K : StarRing) (qr : nd K -> res (nd K * nd K)) (x H : ltens K) (hs rhos : list (ltens K)) (ws : list (nat * nat)) d L :
  qr_sound qr -> mpa_pos x -> mshape x = singles (repeat d L) ->
  hs <> [] -> Forall mpa_ok hs -> Forall (fun h => mshape h = repeat [d; d] (llen h)) hs ->
  Forall2 (fun w h => snd w = fst w + llen h /\ snd w <= L) ws hs ->
  local_sum hs None L (Some (map (fun w => (Z.of_nat (fst w), Z.of_nat (snd w))) ws)) = Ok H ->
  reductions_mps_as_mpo qr x None (Some (map Z.of_nat (map fst ws))) (Some (map Z.of_nat (map snd ws))) = Ok rhos ->
  length rhos = length hs /\
  sandwich H x None = Ok (bigsum (length hs) (fun j => trace_prod d (nth j hs (mkLt [] 0 0)) (nth j rhos (mkLt [] 0 0)))).
Proof.
  intros Hq Hx Sx Hn Ho Hsq Hw EH ER.
  assert (H1 : one_leg (mshape x)) by (rewrite Sx; unfold one_leg, singles; apply Forall_forall; intros p Hp; apply in_map_iff in Hp; destruct Hp as (i & <- & _); reflexivity).
  assert (Ll : llen x = L) by (rewrite <- mshape_length, Sx; unfold singles; rewrite map_length; apply repeat_length).
  assert (Hpos : forall h, In h hs -> 0 < llen h) by (intros h Hh; rewrite Forall_forall in Ho; destruct (Ho h Hh) as [Q _]; unfold llen; destruct (lts h); [congruence|cbn; lia]).
  assert (F : Forall2 (mps_reduction x) ws rhos).
  { refine (outc_inv _ _ _ _ (C39_mps_as_mpo K qr x ws Hq Hx H1 _) ER). clear - Hw Hpos Ll. induction Hw as [|w h ws hs [E1 E2] Hw IH]; [constructor|].
    constructor; [pose proof (Hpos h (or_introl eq_refl)); lia|apply IH; intros; apply Hpos; right; assumption]. }
  assert (Lw : length ws = length hs) by (clear - Hw; induction Hw; cbn; congruence).
  assert (Lr : length ws = length rhos) by (clear - F; induction F; cbn; congruence).
  split; [congruence|].
  assert (Ew : map (fun w => (Z.of_nat (fst w), Z.of_nat (snd w))) ws = windows (map fst ws) hs).
  { clear - Hw. induction Hw as [|w h ws hs [E1 E2] Hw IH]; [reflexivity|]. unfold windows in *. cbn [map zip2]. rewrite <- IH, <- E1. reflexivity. }
  rewrite Ew in EH.
  destruct (C35_local_sum K hs (map fst ws) None (eye d) [d; d] L Hn) as (z & Ez & Oz & Sz & _ & _ & Vz).
  { rewrite map_length. exact Lw. }
  { exact Ho. }
  { exact Hsq. }
  { clear - Hw. induction Hw as [|w h ws hs [E1 E2] Hw IH]; cbn [map]; constructor; [lia|exact IH]. }
  { apply Forall_forall. intros h Hh. rewrite Forall_forall in Hsq. specialize (Hpos h Hh). cbn. exists d, (repeat [d; d] (llen h - 1)). split; [|reflexivity].
    rewrite (Hsq h Hh). destruct (llen h) as [|n]; [lia|]. cbn [repeat Nat.sub]. rewrite Nat.sub_0_r. reflexivity. }
  { apply NdFacts.wf_tab. }
  { reflexivity. }
  rewrite EH in Ez. injection Ez as <-.
  assert (Sp : repeat [d; d] L = pairs (repeat d L) (repeat d L)) by (rewrite <- pairs_diag; clear; induction L as [|n IH]; [reflexivity|cbn [repeat map]; rewrite IH; reflexivity]).
  rewrite (C11_sandwich_default K H x (repeat d L) Oz (proj1 Hx) ltac:(rewrite Sz; exact Sp) Sx). f_equal.
  transitivity (bigsum (length hs) (fun j => msum (repeat d L) (fun is => msum (repeat d L) (fun js =>
     let a := nth j (map fst ws) 0%nat in let h := nth j hs (mkLt [] 0%Z 0%Z) in
     kconj (entry x (singles is)) * (kprod (map (get (eye d)) (firstn a (pairs is js))) * entry h (firstn (llen h) (skipn a (pairs is js))) * kprod (map (get (eye d)) (skipn (a + llen h)%nat (pairs is js)))) * entry x (singles js)))))%K.
  - rewrite <- msum_bigsum_swap. apply msum_ext. intros is Hi. rewrite <- msum_bigsum_swap. apply msum_ext. intros js Hj.
    rewrite Vz by (rewrite Sp; apply PfMpPovm.pairs_inr; auto). rewrite <- bigsum_mul_l, <- bigsum_mul_r. reflexivity.
  - apply bigsum_ext. intros j Hj. cbv zeta. assert (Na : nth j (map fst ws) 0 = fst (nth j ws (0, 0))) by exact (map_nth fst ws (0, 0) j). rewrite Na.
    pose proof (PfBounds.Forall2_nth_inv _ _ _ ws hs Hw j (0, 0) (mkLt [] 0%Z 0%Z) ltac:(lia)) as [E1 E2].
    pose proof (PfBounds.Forall2_nth_inv _ _ _ ws rhos F j (0, 0) (mkLt [] 0%Z 0%Z) ltac:(lia)) as Pr.
    apply (term_value x _ _ d L); [exact Sx|lia|]. rewrite <- E1, <- surjective_pairing. exact Pr.
Qed.
Print Assumptions C85_energy.

(** The state 3|000> + 2i|111> and two operators on the sites 0, 1 and 1, 2. *)
Example C85_ex : let hs := [Props_Build.ex_h 1; Props_Build.ex_h 2] in
  mpa_pos ex_ghz /\ mshape ex_ghz = singles (repeat 2 3) /\ Forall mpa_ok hs /\ Forall (fun h => mshape h = repeat [2; 2] (llen h)) hs /\
  Forall2 (fun w h => snd w = fst w + llen h /\ snd w <= 3) [(0, 2); (1, 3)] hs /\
  match local_sum hs None 3 (Some [(0, 2); (1, 3)]%Z), reductions_mps_as_mpo qr_gz ex_ghz None (Some [0; 1]%Z) (Some [2; 3]%Z) with
  | Ok H, Ok [r1; r2] => sandwich H ex_ghz None = Ok (kadd (trace_prod 2 (Props_Build.ex_h 1) r1) (trace_prod 2 (Props_Build.ex_h 2) r2)) /\
      sandwich H ex_ghz None = Ok (g 73 (-14))
  | _, _ => False end.
Proof.
  split; [exact ghz_pos|]. split; [reflexivity|]. split; [repeat constructor; cbn; lia || discriminate|]. split; [repeat constructor|].
  split; [repeat constructor; cbn; lia|]. vm_compute. auto.
Qed.
