(** What is assumed about the matrix factorisations of numpy, and the form of the
    statements about functions that use them. *)
From Verif Require Export MpCanon.

Section Spec.
Context {K : StarRing}.

(** A non-empty matrix. *)
Definition is_mat (a : nd K) (m n : nat) : Prop := shp a = [m; n] /\ ndwf a /\ 0 < m /\ 0 < n.

(** Reduced QR factors of [a]: shapes (m, k) and (k, n) with k = min(m, n),
    [a = q r], the columns of [q] orthonormal.  (That [r] is triangular is not
    needed.) *)
Definition qr_factors (a : nd K) (m n : nat) (q r : nd K) : Prop :=
  shp q = [m; Nat.min m n] /\ ndwf q /\ shp r = [Nat.min m n; n] /\ ndwf r /\
  (forall i j, i < m -> j < n ->
     get a [i; j] = bigsum (Nat.min m n) (fun k => get q [i; k] * get r [k; j])%K) /\
  (forall k l, k < Nat.min m n -> l < Nat.min m n ->
     bigsum m (fun i => kconj (get q [i; k]) * get q [i; l])%K = delta k l).
(** A correct [qr]: on a non-empty matrix it returns QR factors or raises
    LinAlgError. *)
Definition qr_sound (qr : nd K -> res (nd K * nd K)) : Prop :=
  forall m n a, is_mat a m n ->
    match qr a with Ok (q, r) => qr_factors a m n q r | Err e => e = LinAlgError end.
Definition qr_fails (qr : nd K -> res (nd K * nd K)) : Prop :=
  exists m n a, is_mat a m n /\ qr a = Err LinAlgError.
Definition qr_total (qr : nd K -> res (nd K * nd K)) : Prop := ~ qr_fails qr.

(** Full SVD: [u] (m, m), [v] (n, n), min(m, n) real singular values,
    [a = u diag(s) v]; the columns of [u] and the rows of [v] are orthonormal. *)
Definition svd_factors (a : nd K) (m n : nat) (u : nd K) (s : list K) (v : nd K) : Prop :=
  shp u = [m; m] /\ ndwf u /\ List.length s = Nat.min m n /\ shp v = [n; n] /\ ndwf v /\
  (forall i j, i < m -> j < n ->
     get a [i; j] = bigsum (Nat.min m n) (fun k => get u [i; k] * nth k s k0 * get v [k; j])%K) /\
  (forall k l, k < m -> l < m -> bigsum m (fun i => kconj (get u [i; k]) * get u [i; l])%K = delta k l) /\
  (forall k l, k < n -> l < n -> bigsum n (fun j => get v [k; j] * kconj (get v [l; j]))%K = delta k l) /\
  (forall k, k < Nat.min m n -> kconj (nth k s k0) = nth k s k0).
Definition svd_sound (svd : nd K -> res (nd K * list K * nd K)) : Prop :=
  forall m n a, is_mat a m n ->
    match svd a with Ok (u, s, v) => svd_factors a m n u s v | Err e => e = LinAlgError end.
Definition svd_fails (svd : nd K -> res (nd K * list K * nd K)) : Prop :=
  exists m n a, is_mat a m n /\ svd a = Err LinAlgError.

(** Factors of a truncated SVD with at most [k] singular values: [u] and [v] are
    isometries, [u^H a = diag(s) v] and [a v^H = u diag(s)]; when nothing needs to
    be truncated they reproduce [a].  ([truncated_svd] fulfils this when [svd] is
    sound, see [PfCompress.truncated_svd_sound].) *)
Definition tsvd_factors (a : nd K) (m n k : nat) (u : nd K) (s : list K) (v : nd K) : Prop :=
  let d := List.length s in
  0 < d /\ d <= k /\ d <= Nat.min m n /\ (Nat.min m n <= k -> d = Nat.min m n) /\
  shp u = [m; d] /\ ndwf u /\ shp v = [d; n] /\ ndwf v /\
  (forall c e, c < d -> e < d -> bigsum m (fun i => kconj (get u [i; c]) * get u [i; e])%K = delta c e) /\
  (forall c e, c < d -> e < d -> bigsum n (fun j => get v [c; j] * kconj (get v [e; j]))%K = delta c e) /\
  (forall c, c < d -> kconj (nth c s k0) = nth c s k0) /\
  (forall c j, c < d -> j < n -> bigsum m (fun i => kconj (get u [i; c]) * get a [i; j])%K = (nth c s k0 * get v [c; j])%K) /\
  (forall i c, i < m -> c < d -> bigsum n (fun j => get a [i; j] * kconj (get v [c; j]))%K = (get u [i; c] * nth c s k0)%K) /\
  (Nat.min m n <= k -> forall i j, i < m -> j < n ->
     get a [i; j] = bigsum d (fun c => get u [i; c] * nth c s k0 * get v [c; j])%K).
Definition tsvd_sound (svdfunc : nd K -> nat -> res (nd K * list K * nd K)) : Prop :=
  forall m n k a, is_mat a m n -> 0 < k ->
    match svdfunc a k with Ok (u, s, v) => tsvd_factors a m n k u s v | Err e => e = LinAlgError end.
Definition tsvd_fails (svdfunc : nd K -> nat -> res (nd K * list K * nd K)) : Prop :=
  exists m n k a, is_mat a m n /\ 0 < k /\ svdfunc a k = Err LinAlgError.

(** The call returns a value with the property [P], or it raises the
    LinAlgError of a factorisation that failed ([F]). *)
Definition outc {A : Type} (F : Prop) (r : res A) (P : A -> Prop) : Prop :=
  (exists z, r = Ok z /\ P z) \/ (r = Err LinAlgError /\ F).

Lemma outc_ok {A : Type} F (z : A) (P : A -> Prop) : P z -> outc F (Ok z) P.
Proof. intros H. left. exists z. auto. Qed.
Lemma outc_bind {A B : Type} F (r : res A) (f : A -> res B) P Q :
  outc F r P -> (forall z, P z -> outc F (f z) Q) -> outc F (bind r f) Q.
Proof.
  intros [[z [-> Hz]]|[-> HF]] H; [exact (H z Hz)|]. right. split; [reflexivity|exact HF].
Qed.
Lemma outc_weaken {A : Type} (F G : Prop) (r : res A) (P Q : A -> Prop) :
  outc F r P -> (F -> G) -> (forall z, P z -> Q z) -> outc G r Q.
Proof. intros [[z [E H]]|[E H]] HF HP; [left; exists z; auto|right; auto]. Qed.
Lemma outc_total {A : Type} (F : Prop) (r : res A) (P : A -> Prop) :
  ~ F -> outc F r P -> exists z, r = Ok z /\ P z.
Proof. intros HF [H|[_ H]]; [exact H|contradiction]. Qed.
Lemma outc_inv {A : Type} F (r : res A) P z : outc F r P -> r = Ok z -> P z.
Proof. intros [[y [E H]]|[E _]] Ez; [congruence|congruence]. Qed.

Lemma qr_outc qr m n (a : nd K) : qr_sound qr -> is_mat a m n ->
  outc (qr_fails qr) (qr a) (fun p => qr_factors a m n (fst p) (snd p)).
Proof.
  intros H Ha. specialize (H m n a Ha). destruct (qr a) as [[q r]|e] eqn:E.
  - apply outc_ok. exact H.
  - subst e. right. split; [reflexivity|]. exists m, n, a. auto.
Qed.
Lemma svd_outc svd m n (a : nd K) : svd_sound svd -> is_mat a m n ->
  outc (svd_fails svd) (svd a) (fun p => svd_factors a m n (fst (fst p)) (snd (fst p)) (snd p)).
Proof.
  intros H Ha. specialize (H m n a Ha). destruct (svd a) as [[[u s] v]|e] eqn:E.
  - apply outc_ok. exact H.
  - subst e. right. split; [reflexivity|]. exists m, n, a. auto.
Qed.
Lemma tsvd_outc svdfunc m n k (a : nd K) : tsvd_sound svdfunc -> is_mat a m n -> 0 < k ->
  outc (tsvd_fails svdfunc) (svdfunc a k) (fun p => tsvd_factors a m n k (fst (fst p)) (snd (fst p)) (snd p)).
Proof.
  intros H Ha Hk. specialize (H m n k a Ha Hk). destruct (svdfunc a k) as [[[u s] v]|e] eqn:E.
  - apply outc_ok. exact H.
  - subst e. right. split; [reflexivity|]. exists m, n, k, a. auto.
Qed.
End Spec.
