(** Product MP-POVMs with diagonal elements: a family of examples. *)
From Coq Require Import Reals Lra.
From Verif Require Export PfEstExact.
Open Scope nat_scope.
Add Ring Cr : (k_ring CS).

(** A site with [dn] outcomes and dimension [dh]; outcome [k] has the diagonal [da k]. *)
Record dsite := mkD { dn : nat; dh : nat; da : nat -> nat -> R }.
Definition dten (s : dsite) : nd CS := tab [dn s; dh s; dh s] (fun idx => match idx with [k; i; j] => if Nat.eqb i j then toC (da s k i) else k0 | _ => k0 end).
Definition dsite_ok (s : dsite) : Prop := 0 < dn s <= 255 /\ 0 < dh s /\ (forall k i, k < dn s -> i < dh s -> (0 <= da s k i)%R) /\ (forall i, i < dh s -> rbig (dn s) (fun k => da s k i) = 1%R).
Fixpoint dprod (l : list dsite) (ks is : list nat) : R :=
  match l, ks, is with s :: l', k :: ks', i :: is' => (da s k i * dprod l' ks' is')%R | _, _, _ => 1%R end.
Definition diag (f : list nat -> R) : mat CS := fun is js => if list_eq_dec Nat.eq_dec is js then toC (f is) else k0.
Lemma get_dten s k i j : k < dn s -> i < dh s -> j < dh s -> get (dten s) [k; i; j] = if Nat.eqb i j then toC (da s k i) else k0.
Proof. intros. unfold dten. rewrite get_tab by (repeat (apply inr_cons; [assumption|]); constructor). reflexivity. Qed.
Lemma prod_diag l : forall ks is js, inr ks (map dn l) -> inr is (map dh l) -> inr js (map dh l) -> prod_elem (map dten l) ks is js = diag (dprod l ks) is js.
Proof.
  induction l as [|s l IH]; intros ks is js Hk Hi Hj; cbn [map] in *.
  - inversion Hi; subst. inversion Hj; subst. unfold prod_elem, diag. cbn [zip2]. destruct (list_eq_dec Nat.eq_dec [] []); [|congruence]. destruct ks; reflexivity.
  - apply inr_cons_inv in Hk. destruct Hk as (k & ks' & -> & Hk & Hks). apply inr_cons_inv in Hi. destruct Hi as (i & is' & -> & Hi & His). apply inr_cons_inv in Hj. destruct Hj as (j & js' & -> & Hj & Hjs).
    unfold prod_elem. rewrite triples_cons. cbn [zip2]. rewrite kprod_cons. fold (prod_elem (map dten l) ks' is' js'). rewrite IH, get_dten by assumption. unfold diag. cbn [dprod].
    destruct (Nat.eqb_spec i j) as [E1|N1], (list_eq_dec Nat.eq_dec is' js') as [E2|N2], (list_eq_dec Nat.eq_dec (i :: is') (j :: js')) as [E|N]; try congruence; try ring.
    rewrite toC_mul. reflexivity.
Qed.
Theorem diag_povm l : l <> [] -> Forall dsite_ok l -> exists z, kron_povm (map dten l) = Ok z /\ povm_ok z (map dn l) (map dh l) /\ psd_elems z /\ sums_to_id z /\
  forall ks is js, inr ks (map dn l) -> inr is (map dh l) -> inr js (map dh l) -> elem_of z ks is js = diag (dprod l ks) is js.
Proof.
  intros Hn H. assert (L : length (map dn l) = length (map dh l)) by (rewrite !map_length; reflexivity).
  assert (H1 : Forall2 (fun f p => elems_ok f (fst p) (snd p)) (map dten l) (combine (map dn l) (map dh l))).
  { clear Hn L. induction H as [|s l (A & B & _) H IH]; cbn [map combine]; constructor; [|exact IH]. split; [apply wf_tab|]. split; [reflexivity|]. split; assumption. }
  assert (N' : map dten l <> []) by (destruct l; [congruence|discriminate]).
  destruct (kron_povm_spec (map dten l) _ _ N' L H1) as (z & E & Hz & _ & G). exists z. split; [exact E|]. split; [exact Hz|]. split; [|split].
  - apply (kron_povm_psd (map dten l) (map dn l) (map dh l)); try assumption. clear -H. induction H as [|s l (A & B & C & _) H IH]; cbn [map combine]; constructor; [|exact IH]. cbn [fst snd]. intros k Hk v.
    rewrite (bigsum_ext _ _ (fun i => toC (da s k i) * (v i * kconj (v i)))%K).
    + apply cnonneg_sum. intros i Hi. destruct (cnonneg_sq (v i)) as [S1 S2]. pose proof (C k i Hk Hi) as P. set (w := (v i * kconj (v i))%K) in *. clearbody w. destruct w as [w1 w2]. unfold cnonneg, Cre, Cim in *. cbn in *. subst w2. split; [ring|nra].
    + intros i Hi. rewrite (bigsum_ext _ _ (fun j => delta i j * (kconj (v i) * toC (da s k i) * v j))%K).
      * rewrite (bigsum_delta_l (dh s) i (fun j => kconj (v i) * toC (da s k i) * v j)%K) by exact Hi. ring.
      * intros j Hj. rewrite get_dten by assumption. unfold delta. destruct (Nat.eqb i j); ring.
  - apply (kron_povm_complete (map dten l) (map dn l) (map dh l)); try assumption. clear -H. induction H as [|s l (A & B & _ & C) H IH]; cbn [map combine]; constructor; [|exact IH]. cbn [fst snd]. intros i j Hi Hj.
    unfold delta. destruct (Nat.eqb_spec i j) as [->|N].
    + rewrite (bigsum_ext _ _ (fun k => toC (da s k j))) by (intros k Hk; rewrite get_dten by assumption; rewrite Nat.eqb_refl; reflexivity).
      rewrite <- toC_1, <- (C j Hj). clear. unfold rbig. induction (dn s) as [|n IH]; [reflexivity|]. cbn [bigsum]. rewrite IH. change (toC (?a + ?b)) with (toC a + toC b)%K. symmetry. apply toC_add.
    + apply bigsum_zero. intros k Hk. rewrite get_dten by assumption. destruct (Nat.eqb_spec i j); [congruence|reflexivity].
  - intros ks is js Hk Hi Hj. rewrite <- prod_diag by assumption. apply G; assumption.
Qed.

(** ** Matching of diagonal elements *)
Lemma diag_sum hs (f : list nat -> R) (g : list nat -> list nat -> CS) is : inr is hs -> (forall js, inr js hs -> js <> is -> g is js = k0) -> msum hs (fun js => g is js) = g is is.
Proof.
  intros Hi H. rewrite (msum_ext hs _ (fun js => list_delta is js * g is js)%K).
  - apply (msum_list_delta hs is (fun js => g is js)). exact Hi.
  - intros js Hj. destruct (row_dec js is) as [->|N].
    + rewrite <- ident_delta, ident_diag. ring.
    + rewrite (H js Hj N). ring.
Qed.
Lemma hsin_diag hs f g : hsin hs (diag f) (diag g) = toC (rmsum hs (fun is => f is * g is)%R).
Proof.
  unfold hsin. rewrite <- toC_rmsum. apply msum_ext. intros is Hi. rewrite (diag_sum hs f (fun is js => kconj (diag f is js) * diag g is js)%K is Hi).
  - unfold diag. destruct (list_eq_dec Nat.eq_dec is is); [|congruence]. rewrite toC_conj, toC_mul. reflexivity.
  - intros js Hj N. unfold diag. destruct (list_eq_dec Nat.eq_dec is js); [congruence|]. rewrite kconj_0. ring.
Qed.
Lemma hsn2_diag hs f : hsn2 hs (diag f) = rmsum hs (fun is => f is * f is)%R.
Proof. unfold hsn2. rewrite hsin_diag. reflexivity. Qed.
Lemma overlap_diag hs f g : overlap hs (diag f) (diag g) = (rmsum hs (fun is => f is * g is) * rmsum hs (fun is => f is * g is) / (rmsum hs (fun is => f is * f is) * rmsum hs (fun is => g is * g is)))%R.
Proof. unfold overlap. rewrite hsin_diag, !hsn2_diag. unfold cabs2, Cre, Cim. cbn. f_equal. ring. Qed.
Lemma overlap_ext hs A A' B B' : (forall is js, inr is hs -> inr js hs -> A is js = A' is js) -> (forall is js, inr is hs -> inr js hs -> B is js = B' is js) -> overlap hs A B = overlap hs A' B'.
Proof. intros H1 H2. unfold overlap. rewrite (hsin_ext hs A A' B B' H1 H2), (hsn2_ext hs A A' H1), (hsn2_ext hs B B' H2). reflexivity. Qed.
Lemma summed_toC ns os ls (f : list nat -> R) : length ns = length os -> inr ls (merge_dims ns os) -> summed (K:=CS) ns os ls (fun l => toC (f l)) = toC (summed (K:=RS) ns os ls f).
Proof.
  intros L H. rewrite <- !summed_ind by assumption. change (msum (K:=RS) os ?h) with (rmsum os h). rewrite <- toC_rmsum. apply msum_ext. intros l _. destruct (row_dec (proj ns l) ls); reflexivity.
Qed.
Lemma summed_zero {K : StarRing} ns os ls : length ns = length os -> inr ls (merge_dims ns os) -> summed (K:=K) ns os ls (fun _ => k0) = k0.
Proof. intros L H. rewrite <- summed_ind by assumption. apply msum_zero. intros l _. destruct (row_dec (proj ns l) ls); reflexivity. Qed.
Section Two.
Variables (lx lo : list dsite).
Let ns := map dn lx.
Let os := map dn lo.
Let hs := map dh lx.
Hypothesis Hh : map dh lo = map dh lx.
Let L : length ns = length os.
Proof. unfold ns, os. rewrite !map_length. rewrite <- (map_length dh lx), <- Hh, map_length. reflexivity. Qed.
(** Diagonals of the elements, after summing for the second POVM *)
Definition xdiag (ks is : list nat) : R := dprod lx ks is.
Definition odiag (ls is : list nat) : R := summed (K:=RS) ns os ls (fun l => dprod lo l is).
Definition rdot (f g : list nat -> R) : R := rmsum hs (fun is => f is * g is)%R.
Variables (x o : ltens CS).
Hypothesis Ex : forall ks is js, inr ks ns -> inr is hs -> inr js hs -> elem_of x ks is js = diag (dprod lx ks) is js.
Hypothesis Eo : forall ks is js, inr ks os -> inr is (map dh lo) -> inr js (map dh lo) -> elem_of o ks is js = diag (dprod lo ks) is js.
Lemma summed_diag ls is js : inr ls (merge_dims ns os) -> inr is hs -> inr js hs -> summed_elem ns os o ls is js = diag (odiag ls) is js.
Proof.
  intros Hl Hi Hj. unfold summed_elem. rewrite (summed_ext ns os ls _ (fun l => diag (dprod lo l) is js)) by (try (symmetry; exact L); try assumption; intros l Hl'; apply Eo; rewrite ?Hh; assumption).
  unfold diag. destruct (list_eq_dec Nat.eq_dec is js) as [->|N]; [apply summed_toC; [exact L|exact Hl]|apply summed_zero; [exact L|exact Hl]].
Qed.
Lemma diag_nonzero : (forall ks, inr ks ns -> (0 < rdot (xdiag ks) (xdiag ks))%R) -> (forall ls, inr ls (merge_dims ns os) -> (0 < rdot (odiag ls) (odiag ls))%R) -> nonzero_elems hs ns os x o.
Proof.
  intros A B. split.
  - intros ks Hk. rewrite (hsn2_ext hs _ (diag (dprod lx ks))) by (intros; apply Ex; assumption). rewrite hsn2_diag. apply (A ks Hk).
  - intros ls Hl. rewrite (hsn2_ext hs _ (diag (odiag ls))) by (intros; apply summed_diag; assumption). rewrite hsn2_diag. apply (B ls Hl).
Qed.
Lemma diag_mt ks ls : inr ks ns -> inr ls (merge_dims ns os) ->
  mt hs ns os x o ks ls = Rleb (Rabs (rdot (xdiag ks) (odiag ls) * rdot (xdiag ks) (odiag ls) / (rdot (xdiag ks) (xdiag ks) * rdot (odiag ls) (odiag ls)) - 1)) (1 / 10 ^ 10) /\
  pfac hs ns os x o ks ls = sqrt (rdot (xdiag ks) (xdiag ks) / rdot (odiag ls) (odiag ls)).
Proof.
  intros Hk Hl. split.
  - unfold mt. rewrite (overlap_ext hs _ (diag (xdiag ks)) _ (diag (odiag ls))) by (intros; first [apply Ex; assumption|apply summed_diag; assumption]). rewrite overlap_diag. reflexivity.
  - unfold pfac. rewrite (hsn2_ext hs _ (diag (xdiag ks))) by (intros; apply Ex; assumption). rewrite (hsn2_ext hs (summed_elem ns os o ls) (diag (odiag ls))) by (intros; apply summed_diag; assumption). rewrite !hsn2_diag. reflexivity.
Qed.
(** Proportional diagonals match with the right factor. *)
Lemma diag_prop c ks ls : inr ks ns -> inr ls (merge_dims ns os) -> (0 < c)%R -> (0 < rdot (odiag ls) (odiag ls))%R -> (forall is, inr is hs -> xdiag ks is = (c * odiag ls is)%R) ->
  mt hs ns os x o ks ls = true /\ pfac hs ns os x o ks ls = c.
Proof.
  intros Hk Hl Hc P E. destruct (diag_mt ks ls Hk Hl) as [-> ->]. set (n := rdot (odiag ls) (odiag ls)) in *.
  assert (E1 : rdot (xdiag ks) (odiag ls) = (c * n)%R) by (unfold n, rdot; rewrite <- rmsum_scale; apply rmsum_ext; intros is Hi; rewrite E by exact Hi; ring).
  assert (E2 : rdot (xdiag ks) (xdiag ks) = (c * c * n)%R) by (unfold n, rdot; rewrite <- rmsum_scale; apply rmsum_ext; intros is Hi; rewrite E by exact Hi; ring).
  rewrite E1, E2. split.
  - replace (c * n * (c * n) / (c * c * n * n) - 1)%R with 0%R by (field; lra). rewrite Rabs_R0. apply Rleb_true. apply Rlt_le, Rdiv_lt_0_compat; [lra|apply pow_lt; lra].
  - replace (c * c * n / n)%R with (Rsqr c) by (unfold Rsqr; field; lra). apply sqrt_Rsqr. lra.
Qed.
Lemma diag_noprop ks ls : inr ks ns -> inr ls (merge_dims ns os) -> (rdot (xdiag ks) (odiag ls) * rdot (xdiag ks) (odiag ls) / (rdot (xdiag ks) (xdiag ks) * rdot (odiag ls) (odiag ls)) < 99 / 100)%R ->
  mt hs ns os x o ks ls = false.
Proof.
  intros Hk Hl H. destruct (diag_mt ks ls Hk Hl) as [-> _]. set (t := (_ / _)%R) in *. unfold Rleb. destruct (Rle_dec _ _) as [C|C]; [|reflexivity]. exfalso.
  rewrite Rabs_minus_sym in C. pose proof (Rle_abs (1 - t)). assert (1 / 10 ^ 10 <= 1 / 100)%R by lra. lra.
Qed.
End Two.
