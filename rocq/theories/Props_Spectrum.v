(** Schmidt values and reduced states (C84). *)
From Verif Require Import Oracles PfHistory PfBounds PfStates PfStates2 PfSpectrum Props_Canon Props_States Examples.

(** [spectral A n lam u M] ([PfSpectrum]): the family [u] is orthonormal and the matrix [M] is
    sum_c lam_c |u_c><u_c|.  The squares of the values which singularvals yields for a cut are
    the spectrum of both reduced states at this cut, and the eigenvectors are the Schmidt
    vectors of the state. *)
Theorem C84_spectrum (K : StarRing) (qr : nd K -> res (nd K * nd K)) svd (x y : ltens K) ss j Ls Rs :
  qr_sound qr -> svd_sound svd -> mpa_pos x -> cform_ok x -> canon_true x -> one_leg (mshape x) -> S j < llen x ->
  singularvals qr svd x = Ok (ss, y) ->
  reductions_mps_as_mpo qr x None (Some [0%Z]) (Some [Z.of_nat (S j)]) = Ok Ls ->
  reductions_mps_as_mpo qr x None (Some [Z.of_nat (S j)]) (Some [Z.of_nat (llen x)]) = Ok Rs ->
  exists L R u v, Ls = [L] /\ Rs = [R] /\
    let ds := leg1 (mshape x) in let s := nth j ss [] in let lam := fun c => (nth c s k0 * nth c s k0)%K in
    spectral (firstn (S j) ds) (length s) lam u (fun is js => entry L (pairs is js)) /\
    spectral (skipn (S j) ds) (length s) lam v (fun is js => entry R (pairs is js)) /\
    forall is js, inr is (firstn (S j) ds) -> inr js (skipn (S j) ds) ->
      entry x (singles (is ++ js)) = bigsum (length s) (fun c => nth c s k0 * (u c is * v c js))%K.
Proof.
  intros Hq Hs Hx Hc Ht H1 Hj Es EL ER.
  pose proof (outc_inv _ _ _ _ (C29_singularvals K qr svd x Hq Hs Hx Hc Ht ltac:(lia)) Es) as (_ & HS & _). specialize (HS j ltac:(lia)).
  pose proof (outc_inv _ _ _ _ (C39_mps_as_mpo K qr x [(0, S j)] Hq Hx H1 ltac:(apply Forall_cons; [cbn; lia|apply Forall_nil])) EL) as FL.
  pose proof (outc_inv _ _ _ _ (C39_mps_as_mpo K qr x [(S j, llen x)] Hq Hx H1 ltac:(apply Forall_cons; [cbn; lia|apply Forall_nil])) ER) as FR.
  inversion FL as [|? L ? ? PL FL2]; subst. inversion FL2; subst. inversion FR as [|? R ? ? PR FR2]; subst. inversion FR2; subst.
  destruct (cut_spectral x L R (S j) (nth j ss []) (proj1 Hx) H1 ltac:(lia) HS PL PR) as (u & v & H). exists L, R, u, v. auto.
Qed.
Print Assumptions C84_spectrum.

(** What a spectral form says: the vectors are eigenvectors, everything orthogonal to them is
    mapped to zero. *)
Theorem C84_eigen (K : StarRing) A n lam u (M : list nat -> list nat -> K) : spectral A n lam u M ->
  (forall c a, c < n -> inr a A -> msum A (fun b => M a b * u c b)%K = (lam c * u c a)%K) /\
  (forall w a, inr a A -> (forall c, c < n -> msum A (fun b => kconj (u c b) * w b)%K = k0) -> msum A (fun b => M a b * w b)%K = k0).
Proof. intros H. split; [intros c a; exact (spectral_eigen A n lam u M c a H)|intros w a; exact (spectral_kernel A n lam u M w a H)]. Qed.
Print Assumptions C84_eigen.

(** Both reduced states have the trace sum_c s_c^2, the squared norm of the state, and the same
    purity sum_c s_c^4. *)
Theorem C84_purity (K : StarRing) (qr : nd K -> res (nd K * nd K)) svd (x y L R : ltens K) ss j :
  qr_sound qr -> svd_sound svd -> mpa_pos x -> cform_ok x -> canon_true x -> one_leg (mshape x) -> S j < llen x ->
  singularvals qr svd x = Ok (ss, y) ->
  reductions_mps_as_mpo qr x None (Some [0%Z]) (Some [Z.of_nat (S j)]) = Ok [L] ->
  reductions_mps_as_mpo qr x None (Some [Z.of_nat (S j)]) (Some [Z.of_nat (llen x)]) = Ok [R] ->
  let A := firstn (S j) (leg1 (mshape x)) in let B := skipn (S j) (leg1 (mshape x)) in let s := fun c => nth c (nth j ss []) k0 in
  msum A (fun is => entry L (pairs is is)) = msums (mshape x) (fun is => kconj (entry x is) * entry x is)%K /\
  msum B (fun is => entry R (pairs is is)) = msums (mshape x) (fun is => kconj (entry x is) * entry x is)%K /\
  msum A (fun is => msum A (fun js => entry L (pairs is js) * entry L (pairs js is)))%K = bigsum (length (nth j ss [])) (fun c => (s c * s c) * (s c * s c))%K /\
  msum B (fun is => msum B (fun js => entry R (pairs is js) * entry R (pairs js is)))%K = bigsum (length (nth j ss [])) (fun c => (s c * s c) * (s c * s c))%K.
Proof.
  intros Hq Hs Hx Hc Ht H1 Hj Es EL ER A B s.
  destruct (C84_spectrum K qr svd x y ss j [L] [R] Hq Hs Hx Hc Ht H1 Hj Es EL ER) as (L' & R' & u & v & E1 & E2 & SL & SR & _).
  injection E1 as <-. injection E2 as <-.
  pose proof (outc_inv _ _ _ _ (C29_singularvals K qr svd x Hq Hs Hx Hc Ht ltac:(lia)) Es) as (_ & _ & HN & _). specialize (HN j ltac:(lia)). unfold norm2_of, inner_of in HN.
  split; [rewrite <- HN; exact (spectral_trace _ _ _ _ _ SL)|]. split; [rewrite <- HN; exact (spectral_trace _ _ _ _ _ SR)|].
  split; [exact (spectral_purity _ _ _ _ _ SL)|exact (spectral_purity _ _ _ _ _ SR)].
Qed.
Print Assumptions C84_purity.

(** The state 3|000> + 2i|111>: values 3, 2 at both cuts, reduced states diag(9, 4). *)
Example C84_ex : mpa_pos ex_ghz /\ cform_ok ex_ghz /\ canon_true ex_ghz /\ one_leg (mshape ex_ghz) /\
  match singularvals qr_gz svd_gz ex_ghz with Ok (ss, _) => nth 0 ss [] = [gi 3; gi 2] | Err _ => False end /\
  match reductions_mps_as_mpo qr_gz ex_ghz None (Some [0%Z]) (Some [1%Z]) with
  | Ok [L] => map (fun p => entry L (pairs [fst p] [snd p])) [(0, 0); (0, 1); (1, 0); (1, 1)] = [gi 9; gi 0; gi 0; gi 4] | _ => False end /\
  match reductions_mps_as_mpo qr_gz ex_ghz None (Some [1%Z]) (Some [3%Z]) with
  | Ok [R] => map (fun p => entry R (pairs [fst p; fst p] [snd p; snd p])) [(0, 0); (0, 1); (1, 0); (1, 1)] = [gi 9; gi 0; gi 0; gi 4] | _ => False end.
Proof.
  split; [exact ghz_pos|]. split; [apply ghz_form|]. split; [apply ghz_form|]. split; [repeat constructor|]. split; [vm_compute; reflexivity|]. split; vm_compute; reflexivity.
Qed.
