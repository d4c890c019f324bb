(** Product MP-POVMs: [from_kron] and [from_local_povm] (mppovm.py 252-260). *)
From Coq Require Import Reals Lra.
From Verif Require Export PfPovmArr PfPsd.
Open Scope nat_scope.

Section Kron.
Context {K : StarRing}.
Add Ring Kr : (k_ring K).
(** [MPPovm.from_kron] *)
Definition kron_povm (fs : list (nd K)) : res (ltens K) := do x <- from_kron fs; povm_checks x.
Definition elems_ok (f : nd K) (n d : nat) : Prop := ndwf f /\ shp f = [n; d; d] /\ 0 < n <= 255 /\ 0 < d.
Definition prod_elem (fs : list (nd K)) (ks is js : list nat) : K := kprod (zip2 get fs (triples ks is js)).
Lemma kron_shapes fs ns hs : Forall2 (fun f p => elems_ok f (fst p) (snd p)) fs (combine ns hs) -> length ns = length hs -> map shp fs = tshape ns hs.
Proof.
  intros H. remember (combine ns hs) as ps eqn:E. revert ns hs E. induction H as [|f p fs ps (_ & S & _) H IH]; intros [|n ns] [|h hs] E L; try discriminate; [reflexivity|]. injection E as -> E. cbn [map fst snd] in *. unfold tshape in *. cbn [zip2]. rewrite S. f_equal. apply IH; [exact E|cbn in L; lia].
Qed.
Theorem kron_povm_spec fs ns hs : fs <> [] -> length ns = length hs -> Forall2 (fun f p => elems_ok f (fst p) (snd p)) fs (combine ns hs) ->
  exists z, kron_povm fs = Ok z /\ povm_ok z ns hs /\ Forall (fun r => r = 1) (ranks z) /\
    forall ks is js, inr ks ns -> inr is hs -> inr js hs -> entry z (triples ks is js) = prod_elem fs ks is js.
Proof.
  intros Hne L H. pose proof (kron_shapes fs ns hs H L) as Sf. unfold kron_povm.
  destruct (from_kron_spec (K:=K) fs Hne) as (z & Ez & Hz & Sz & Rz & Cz & Az). { clear - H. induction H as [|f p fs ps (A & _) H IH]; constructor; assumption. }
  rewrite Sf in Sz. 
  assert (F : Forall (fun n => n <= 255) ns /\ Forall (fun p => 0 < size p) (tshape ns hs)).
  { clear - H L. remember (combine ns hs) as ps eqn:E. revert ns hs E L. induction H as [|f p fs ps (_ & S & B & D) H IH]; intros [|n ns] [|h hs] E L; try discriminate; [split; constructor|]. injection E as -> E. destruct (IH ns hs E) as [I1 I2]; [cbn in L; lia|]. cbn [fst snd] in *. split; constructor; auto; try lia. rewrite !size_cons, size_nil. nia. }
  destruct F as [F1 F2].
  exists z. rewrite Ez. cbn [bind]. rewrite (povm_checks_ok z ns hs) by assumption. split; [reflexivity|]. split; [|split; [exact Rz|]].
  - split; [|split; [|auto]].
    + apply mpa_pos_parts; [exact Hz|eapply Forall_impl; [|exact Rz]; cbn; lia|]. rewrite Sz. exact F2.
    + unfold cform_ok, cf_ok. unfold canonical_form in Cz. injection Cz as -> ->. assert (El : llen z = length fs) by (rewrite <- mshape_length, Sz, <- Sf; apply map_length). rewrite El. destruct fs; [congruence|]. cbn [length]. lia.
  - intros ks is js Hk Hi Hj. assert (V : Forall2 inr (triples ks is js) (tshape ns hs)) by (apply triples_valid; assumption).
    rewrite entry_amp by (auto; unfold valid_idx; rewrite Sz; exact V). apply Az. rewrite Sf. exact V.
Qed.
(** A product of complete POVMs is complete. *)
Lemma prod_complete fs : forall ns hs, length ns = length hs -> Forall2 (fun f p => elems_ok f (fst p) (snd p)) fs (combine ns hs) ->
  Forall2 (fun f p => forall a b, a < snd p -> b < snd p -> bigsum (fst p) (fun k => get f [k; a; b]) = delta a b) fs (combine ns hs) ->
  forall is js, inr is hs -> inr js hs -> msum ns (fun ks => prod_elem fs ks is js) = list_delta is js.
Proof.
  intros ns hs L H. remember (combine ns hs) as ps eqn:E. revert ns hs E L. induction H as [|f p fs ps Hf H IH]; intros [|n ns] [|h hs] E L Hc is js Hi Hj; try discriminate.
  - inversion Hi; inversion Hj; subst. unfold list_delta. rewrite list_eqb_refl. reflexivity.
  - injection E as -> E. inversion Hc as [|? ? ? ? Hc1 Hc2]; subst. apply inr_cons_inv in Hi, Hj. destruct Hi as (i & is' & -> & Hi1 & Hi2). destruct Hj as (j & js' & -> & Hj1 & Hj2). cbn [fst snd] in *. cbn [msum].
    rewrite (bigsum_ext _ _ (fun k => get f [k; i; j] * list_delta is' js')%K).
    + rewrite bigsum_mul_r, Hc1 by assumption. unfold list_delta, delta. rewrite list_eqb_cons. destruct (Nat.eqb i j); cbn [andb]; ring.
    + intros k Hk. rewrite <- (IH ns hs eq_refl ltac:(cbn in L; lia) Hc2 is' js' Hi2 Hj2). rewrite <- msum_mul_l. apply msum_ext. intros ks Hks. unfold prod_elem. rewrite triples_cons. reflexivity.
Qed.
Theorem kron_povm_complete fs ns hs z : fs <> [] -> length ns = length hs -> Forall2 (fun f p => elems_ok f (fst p) (snd p)) fs (combine ns hs) ->
  Forall2 (fun f p => forall a b, a < snd p -> b < snd p -> bigsum (fst p) (fun k => get f [k; a; b]) = delta a b) fs (combine ns hs) ->
  kron_povm fs = Ok z -> sums_to_id z.
Proof.
  intros Hne L H Hc Ez. destruct (kron_povm_spec fs ns hs Hne L H) as (z' & Ez' & Pz & _ & Az). rewrite Ez in Ez'. injection Ez' as <-. destruct (povm_dims _ _ _ Pz) as (D1 & D2 & _).
  intros is js Hi Hj. rewrite D1. rewrite D2 in Hi, Hj. rewrite <- (prod_complete fs ns hs L H Hc is js Hi Hj). apply msum_ext. intros ks Hk. apply Az; assumption.
Qed.
Lemma from_local_kron (f : nd K) w : from_local_povm f w = kron_povm (repeat f w).
Proof. reflexivity. Qed.

(** Completeness of an embedded POVM *)
Lemma msum_ones n : forall f : list nat -> K, msum (repeat 1 n) f = f (repeat 0 n).
Proof. induction n as [|n IH]; intros f; cbn [repeat msum]; [reflexivity|]. rewrite bigsum_1. apply IH. Qed.
Lemma list_delta_app (a b c d : list nat) : length a = length b -> list_delta (K:=K) (a ++ c) (b ++ d) = (list_delta a b * list_delta c d)%K.
Proof.
  revert b. induction a as [|x a IH]; intros [|y b] L; try discriminate.
  - cbn [app]. unfold list_delta at 2. rewrite list_eqb_refl. ring.
  - cbn [app]. unfold list_delta in *. rewrite !list_eqb_cons. destruct (Nat.eqb x y); cbn [andb]; [apply IH; cbn in L; lia|ring].
Qed.
Theorem embed_complete (x z : ltens K) ld s : embedded x z ld s -> sums_to_id x -> sums_to_id z.
Proof.
  intros (O & D & _ & E & _) Cx is js Hi Hj. rewrite D in Hi, Hj. apply inr_app_inv in Hi, Hj. destruct Hi as (l1 & i' & -> & Hl1 & Hi). destruct Hj as (l2 & j' & -> & Hl2 & Hj). apply inr_app_inv in Hi, Hj.
  destruct Hi as (i & r1 & -> & Hi & Hr1). destruct Hj as (j & r2 & -> & Hj & Hr2). rewrite O, msum_app, msum_ones, msum_app.
  rewrite (msum_ext _ _ (fun ks => list_delta l1 l2 * entry x (triples ks i j) * list_delta r1 r2)%K).
  - rewrite msum_mul_r, msum_mul_l, Cx by assumption. rewrite !list_delta_app by (apply inr_length in Hl1, Hl2, Hi, Hj; congruence). ring.
  - intros ks Hk. rewrite msum_ones. apply E; assumption.
Qed.
End Kron.

Add Ring Cr : (k_ring CS).
(** Positivity for multi-indices *)
Definition mpsd (hs : list nat) (f : list nat -> list nat -> CS) : Prop := forall v : list nat -> CS, cnonneg (msum hs (fun is => msum hs (fun js => kconj (v is) * f is js * v js)))%K.
Lemma mpsd_flat hs f : mpsd hs f -> psd (size hs) (fun a b => f (unravel hs a) (unravel hs b)).
Proof.
  intros H v. specialize (H (fun is => v (ravel hs is))). rewrite msum_flat in H. 
  rewrite (bigsum_ext _ _ (fun n => msum hs (fun js => kconj (v (ravel hs (unravel hs n))) * f (unravel hs n) js * v (ravel hs js))%K)); [exact H|].
  intros a Ha. rewrite msum_flat. apply bigsum_ext. intros b Hb. rewrite !ravel_unravel by assumption. reflexivity.
Qed.
Lemma mpsd_gram hs f : mpsd hs f -> gram_rho hs f.
Proof.
  intros H. destruct (psd_gram _ _ (mpsd_flat hs f H)) as (k & w & Hw). exists [k], (fun c is => w (hd 0 c) (ravel hs is)). intros is js Hi Hj. cbn [msum hd].
  specialize (Hw (ravel hs is) (ravel hs js) (ravel_lt _ _ Hi) (ravel_lt _ _ Hj)). rewrite !unravel_ravel in Hw by assumption. exact Hw.
Qed.
Lemma gram_mpsd hs f : gram_rho hs f -> mpsd hs f.
Proof.
  intros (cs & w & Hw) v.
  rewrite (msum_ext hs _ (fun is => msum cs (fun c => msum hs (fun js => (kconj (v is) * w c is) * (kconj (w c js) * v js))))%K).
  - rewrite msum_swap. apply cnonneg_msum. intros c _. rewrite (msum_ext hs _ (fun is => (kconj (v is) * w c is) * msum hs (fun js => kconj (w c js) * v js))%K) by (intros; apply msum_mul_l).
    rewrite msum_mul_r. set (z := msum hs (fun is => kconj (v is) * w c is)%K). replace (msum hs (fun js => kconj (w c js) * v js)%K) with (kconj z); [apply cnonneg_sq|].
    unfold z. rewrite msum_conj. apply msum_ext. intros b _. rewrite kconj_mul, kconj_invol. ring.
  - intros is Hi. rewrite msum_swap. apply msum_ext. intros js Hj. rewrite Hw by assumption. rewrite <- msum_mul_l, <- msum_mul_r. apply msum_ext. intros c _. ring.
Qed.
(** A product of positive elements is positive. *)
Lemma prod_gram fs : forall ns hs, length ns = length hs -> Forall2 (fun f p => forall k, k < fst p -> psd (snd p) (fun a b => get f [k; a; b])) fs (combine ns hs) ->
  forall ks, inr ks ns -> gram_rho hs (prod_elem fs ks).
Proof.
  intros ns hs L H. remember (combine ns hs) as ps eqn:E. revert ns hs E L. induction H as [|f p fs ps Hf H IH]; intros [|n ns] [|h hs] E L ks Hk; try discriminate.
  - exists [], (fun _ _ => k1). intros is js Hi Hj. inversion Hk; inversion Hi; inversion Hj; subst. apply cplx_eq; cbn; lra.
  - injection E as -> E. apply inr_cons_inv in Hk. destruct Hk as (k & ks' & -> & Hk1 & Hk2). cbn [fst snd] in *.
    destruct (IH ns hs E ltac:(cbn in L; lia) ks' Hk2) as (cs & w & Hw). destruct (psd_gram _ _ (Hf k Hk1)) as (q & u & Hu).
    exists (q :: cs), (fun c is => u (hd O c) (hd O is) * w (tl c) (tl is))%K. intros is js Hi Hj. apply inr_cons_inv in Hi, Hj. destruct Hi as (i & is' & -> & Hi1 & Hi2). destruct Hj as (j & js' & -> & Hj1 & Hj2).
    unfold prod_elem. rewrite triples_cons. cbn [zip2]. rewrite kprod_cons. change (kprod (zip2 get fs (triples ks' is' js'))) with (prod_elem fs ks' is' js'). rewrite Hw, Hu by assumption. cbn [msum hd tl].
    rewrite <- bigsum_mul_r. apply bigsum_ext. intros c _. rewrite <- msum_mul_l. apply msum_ext. intros c' _. rewrite kconj_mul. ring.
Qed.
Theorem kron_povm_psd (fs : list (nd CS)) ns hs z : fs <> [] -> length ns = length hs -> Forall2 (fun f p => elems_ok f (fst p) (snd p)) fs (combine ns hs) ->
  Forall2 (fun f p => forall k, k < fst p -> psd (snd p) (fun a b => get f [k; a; b])) fs (combine ns hs) ->
  kron_povm fs = Ok z -> psd_elems z.
Proof.
  intros Hne L H Hc Ez. destruct (kron_povm_spec fs ns hs Hne L H) as (z' & Ez' & Pz & _ & Az). rewrite Ez in Ez'. injection Ez' as <-. destruct (povm_dims _ _ _ Pz) as (D1 & D2 & _).
  intros ks Hk v. rewrite D1 in Hk. rewrite D2. pose proof (gram_mpsd hs _ (prod_gram fs ns hs L Hc ks Hk) v) as G. cbn beta in G.
  rewrite (msum_ext _ _ (fun is => msum hs (fun js => kconj (v is) * prod_elem fs ks is js * v js)%K)); [exact G|]. intros is Hi. apply msum_ext. intros js Hj. rewrite Az by assumption. reflexivity.
Qed.
(** Product of local POVMs as in localpovm.py *)
Theorem kron_local (ps : list (povm CS)) ns hs : ps <> [] -> length ns = length hs ->
  Forall2 (fun p q => ndwf (elements p) /\ povm_complete p (fst q) (snd q) /\ 0 < fst q <= 255 /\ 0 < snd q) ps (combine ns hs) ->
  exists z, kron_povm (map (@elements CS) ps) = Ok z /\ povm_ok z ns hs /\ psd_elems z /\ sums_to_id z /\ Forall (fun r => r = 1) (ranks z).
Proof.
  intros Hne L H.
  assert (H1 : Forall2 (fun f p => elems_ok f (fst p) (snd p)) (map (@elements CS) ps) (combine ns hs)).
  { clear - H. induction H as [|p q ps qs (W & (S & _) & N & D) H IH]; cbn [map]; constructor; [|exact IH]. split; [exact W|]. split; [exact S|]. auto. }
  assert (H2 : Forall2 (fun f p => forall a b, a < snd p -> b < snd p -> bigsum (fst p) (fun k => get f [k; a; b]) = delta a b) (map (@elements CS) ps) (combine ns hs)).
  { clear - H. induction H as [|p q ps qs (W & (_ & _ & C) & _) H IH]; cbn [map]; constructor; [exact C|exact IH]. }
  assert (H3 : Forall2 (fun f p => forall k, k < fst p -> psd (snd p) (fun a b => get f [k; a; b])) (map (@elements CS) ps) (combine ns hs)).
  { clear - H. induction H as [|p q ps qs (W & (_ & C & _) & _) H IH]; cbn [map]; constructor; [exact C|exact IH]. }
  assert (Hn : map (@elements CS) ps <> []) by (destruct ps; [congruence|discriminate]).
  destruct (kron_povm_spec _ ns hs Hn L H1) as (z & Ez & Pz & Rz & _). exists z. split; [exact Ez|]. split; [exact Pz|].
  split; [exact (kron_povm_psd _ ns hs z Hn L H1 H3 Ez)|]. split; [exact (kron_povm_complete _ ns hs z Hn L H1 H2 Ez)|exact Rz].
Qed.
