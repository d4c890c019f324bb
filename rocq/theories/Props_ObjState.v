(** C77: the state in which a call that raises leaves the object.  [call x] of the
    models in ObjState gives the new state of [x] and the value or the exception. *)
From Verif Require Import ObjState Oracles PfCompress PfHistory PfBounds PfObjState PfObjState2 Examples.
Open Scope nat_scope.

(** [lt.update]: nothing is written if the call raises. *)
Theorem C77_update (K : StarRing) (x : ltens K) :
  (forall s ts c, update_slice_call s ts c x = match lt_update_slice x s ts c with Ok z => (z, Ok tt) | Err e => (x, Err e) end) /\
  (forall i t f, update_int_call i t f x = match lt_update_int x i t f with Ok z => (z, Ok tt) | Err e => (x, Err e) end).
Proof. split; [exact (update_slice_call_eq x)|exact (update_int_call_eq x)]. Qed.
Print Assumptions C77_update.

(** [canonicalize]: the same array with a true canonical form, whatever happens; arguments are rejected before anything is written. *)
Theorem C77_canonicalize (K : StarRing) (qr : nd K -> res (nd K * nd K)) (x y : ltens K) left right o :
  qr_sound qr -> mpa_pos x -> cform_ok x -> canonicalize_call qr left right x = (y, o) ->
  canonicalize qr x left right = (match o with Ok _ => Ok y | Err e => Err e end) /\
  mpa_pos y /\ mshape y = mshape x /\ to_array y = to_array x /\ Forall2 le (ranks y) (ranks x) /\ cform_ok y /\ (canon_true x -> canon_true y) /\
  (forall e, o = Err e -> e <> LinAlgError -> y = x).
Proof.
  intros Hq Hx Hc E. pose proof (cform_ok_weak x Hc) as Hw. split; [rewrite <- (canonicalize_call_eq qr left right x), E; destruct o; reflexivity|].
  destruct (canonicalize_left qr Hq 1 1 left right x y o (pos_chain _ Hx) Hw E) as (S & W & C). destruct (sim_dense x y (proj1 Hx) S) as (H1 & H2 & H3 & H4 & H5 & _).
  split; [exact H1|]. split; [exact H2|]. split; [exact H4|]. split; [exact H3|]. split; [exact (C Hc)|]. split; [exact H5|].
  intros e -> He. exact (canonicalize_args qr Hq left right x y e Hx Hw E He).
Qed.
Print Assumptions C77_canonicalize.
Theorem C77_norm (K : StarRing) (qr : nd K -> res (nd K * nd K)) (x y : ltens K) o :
  qr_sound qr -> mpa_pos x -> cform_ok x -> norm_sq_call qr x = (y, o) ->
  norm_sq qr x = (match o with Ok v => Ok (v, y) | Err e => Err e end) /\
  mpa_pos y /\ mshape y = mshape x /\ to_array y = to_array x /\ Forall2 le (ranks y) (ranks x) /\ cform_ok y /\ (canon_true x -> canon_true y).
Proof.
  intros Hq Hx Hc E. pose proof (cform_ok_weak x Hc) as Hw. split.
  { pose proof (norm_sq_call_eq qr x) as EQ. rewrite E in EQ. unfold outcome in EQ. cbn [fst snd] in EQ. destruct (norm_sq qr x) as [[v z]|e], o; cbn [bind fst snd] in EQ; congruence. }
  destruct (norm_left qr Hq 1 1 x y o (pos_chain _ Hx) Hw E) as (S & W & C). destruct (sim_dense x y (proj1 Hx) S) as (H1 & H2 & H3 & H4 & H5 & _). auto 10.
Qed.
Print Assumptions C77_norm.

(** [compress(method='svd')]: the state left is a projection of [x] with bonds that are not larger.  It is the same
    array if the requested rank and error allow all of it to be kept, and after every error other than LinAlgError. *)
Theorem C77_compress (K : StarRing) (qr : nd K -> res (nd K * nd K)) svd svdfunc (x y : ltens K) rank relerr dir canon o :
  qr_sound qr -> svd_sound svd -> tsvd_sound svdfunc -> mpa_pos x -> cform_ok x -> canon_true x -> relerr_ok relerr ->
  compress_svd_call qr svd svdfunc rank relerr dir canon x = (y, o) ->
  compress_svd qr svd svdfunc x rank relerr dir canon = (match o with Ok v => Ok (y, v) | Err e => Err e end) /\
  mpa_pos y /\ mshape y = mshape x /\ Forall2 le (ranks y) (ranks x) /\ cform_ok y /\ canon_true y /\
  inner_of x y = norm2_of y /\ dist2_of x y = (norm2_of x - norm2_of y)%K /\
  (relerr_exact relerr -> ranks_le rank x -> to_array y = to_array x) /\
  (forall e, o = Err e -> e <> LinAlgError -> to_array y = to_array x /\ (e = ValueError /\ dir = DOther /\ y = x \/ e = AssertionError /\ rank = Some 0)).
Proof.
  intros Hq Hs Ht Hx Hc HT Hre E. pose proof (cform_ok_weak x Hc) as Hw. split.
  { pose proof (compress_svd_call_eq svd svdfunc qr rank relerr dir canon x) as EQ. rewrite E in EQ. unfold outcome in EQ. cbn [fst snd] in EQ. rewrite <- EQ. destruct o; reflexivity. }
  destruct (compress_left svd svdfunc Hs Ht qr Hq 1 1 rank relerr dir canon x y o (pos_chain _ Hx) Hw Hre E) as (P1 & P2 & P3 & P4 & P5 & P6 & P7 & P8).
  pose proof (chain_pos y P1) as Hy. assert (EI : inner_of x y = norm2_of y).
  { rewrite <- (ovl_inner x y (proj1 Hx) (proj1 Hy) P2), P4. apply (ovl_inner y y); [apply Hy|apply Hy|reflexivity]. }
  split; [exact Hy|]. split; [exact P2|]. split; [exact P3|]. split; [exact (P6 Hc)|]. split; [exact (P7 HT)|].
  split; [exact EI|]. split; [apply pythagoras; assumption|].
  split; [intros R1 R2; apply same_amps_dense; [apply Hx|apply Hy|exact P2|exact (P8 (conj R1 R2))]|].
  intros e -> He. destruct (compress_args svd svdfunc Hs Ht qr Hq 1 1 rank relerr dir canon x y e (pos_chain _ Hx) Hw Hre (fun _ => conj Hc HT) E He) as ((S & _) & D & A).
  split; [apply (sim_dense x y (proj1 Hx) S)|]. destruct A as [[A1 A2]|A]; [left; auto|right; exact A].
Qed.
Print Assumptions C77_compress.
Theorem C77_singularvals (K : StarRing) (qr : nd K -> res (nd K * nd K)) svd (x y : ltens K) o :
  qr_sound qr -> svd_sound svd -> mpa_pos x -> cform_ok x -> canon_true x -> singularvals_call qr svd x = (y, o) ->
  singularvals qr svd x = (match o with Ok v => Ok (v, y) | Err e => Err e end) /\
  mpa_pos y /\ mshape y = mshape x /\ to_array y = to_array x /\ Forall2 le (ranks y) (ranks x) /\ cform_ok y /\ canon_true y.
Proof.
  intros Hq Hs Hx Hc HT E. pose proof (cform_ok_weak x Hc) as Hw. split.
  { pose proof (singularvals_call_eq qr svd x) as EQ. rewrite E in EQ. unfold outcome in EQ. cbn [fst snd] in EQ. destruct (singularvals qr svd x) as [[v z]|e], o; cbn [bind fst snd] in EQ; congruence. }
  destruct (singularvals_left qr svd Hq Hs 1 1 x y o (pos_chain _ Hx) Hw E) as (P1 & P2 & P3 & P4 & P5 & P6 & P7 & P8). pose proof (chain_pos y P1) as Hy.
  split; [exact Hy|]. split; [exact P2|]. split; [apply same_amps_dense; [apply Hx|apply Hy|exact P2|exact (P8 I)]|]. auto.
Qed.
Print Assumptions C77_singularvals.

(** Routines that fail for some matrices. *)
Definition qr_some (a : nd GZ) : res (nd GZ * nd GZ) := if gz_eqb (get a [0; 0]) (g 3 0) then Err LinAlgError else qr_gz a.
Definition svd_some (a : nd GZ) : res (nd GZ * list GZ * nd GZ) := if gz_eqb (get a [1; 1]) (g 0 0) then Err LinAlgError else svd_gz a.
Lemma qr_some_sound : qr_sound qr_some.
Proof. intros m n a Ha. unfold qr_some. destruct (gz_eqb (get a [0; 0]) (g 3 0)); [reflexivity|exact (qr_gz_sound m n a Ha)]. Qed.
Lemma svd_some_sound : svd_sound svd_some.
Proof. intros m n a Ha. unfold svd_some. destruct (gz_eqb (get a [1; 1]) (g 0 0)); [reflexivity|exact (svd_gz_sound m n a Ha)]. Qed.
(** A compression that raises in the middle leaves a different array: [compress] either succeeds or has no effect
    on the array represented - this is false. *)
Theorem C77_compress_refuted : exists (x y : ltens GZ), mpa_pos x /\ cform_ok x /\ canon_true x /\ qr_sound qr_gz /\ svd_sound svd_some /\ tsvd_sound (truncated_svd svd_some) /\
  compress_svd_call qr_gz svd_some (truncated_svd svd_some) (Some 1) None DRight true x = (y, Err LinAlgError) /\ to_array y <> to_array x /\
  (* nor is it the result of the compression *)
  (exists z v, compress_svd qr_gz svd_gz tsvd_gz x (Some 1) None DRight true = Ok (z, v) /\ ranks z = [1; 1] /\ ranks y = [1; 2]).
Proof.
  exists ex_ghz. set (p := compress_svd_call qr_gz svd_some (truncated_svd svd_some) (Some 1) None DRight true ex_ghz). exists (fst p).
  split; [split; [apply mpa_okb_ok; reflexivity|repeat constructor; cbn; lia]|]. split; [apply cform_okb_ok; reflexivity|]. split; [apply canon_trueb_ok; vm_compute; reflexivity|].
  split; [exact qr_gz_sound|]. split; [exact svd_some_sound|]. split; [apply truncated_svd_sound; exact svd_some_sound|].
  split; [vm_compute; reflexivity|]. split; [vm_compute; discriminate|].
  set (q := from_ok (compress_svd qr_gz svd_gz tsvd_gz ex_ghz (Some 1) None DRight true) (no_mpa, k0)). exists (fst q), (snd q). split; [vm_compute; reflexivity|]. split; vm_compute; reflexivity.
Qed.
Print Assumptions C77_compress_refuted.
Example C77_ex : mpa_pos ex_ghz /\ cform_ok ex_ghz /\ qr_sound qr_some /\
  (* interrupted at the second site *)
  (let p := canonicalize_call qr_some CAFull CANone ex_ghz in snd p = Err LinAlgError /\ canonical_form (fst p) = (1, 3)%Z /\ lts (fst p) <> lts ex_ghz /\ to_array (fst p) = to_array ex_ghz) /\
  (let p := canonicalize_call qr_some (CAInt 4) CANone ex_ghz in p = (ex_ghz, Err IndexError)) /\
  (let p := compress_svd_call qr_gz svd_gz tsvd_gz (Some 0) None DRight true ex_ghz in snd p = Err AssertionError /\ canonical_form (fst p) = (0, 1)%Z) /\
  update_int_call 5 (mk [1; 1] [g 1 0]) None ex_ghz = (ex_ghz, Err IndexError) /\
  update_slice_call (mkSlice (Some 0%Z) (Some 2%Z) None) [mk [1; 2; 3] []; mk [2; 2; 2] []] (COne None) ex_ghz = (ex_ghz, Err AssertionError).
Proof.
  split; [split; [apply mpa_okb_ok; reflexivity|repeat constructor; cbn; lia]|]. split; [apply cform_okb_ok; reflexivity|]. split; [exact qr_some_sound|].
  split; [cbv zeta; split; [vm_compute; reflexivity|]; split; [vm_compute; reflexivity|]; split; [vm_compute; discriminate|vm_compute; reflexivity]|].
  split; [vm_compute; reflexivity|]. split; [split; vm_compute; reflexivity|]. split; vm_compute; reflexivity.
Qed.
