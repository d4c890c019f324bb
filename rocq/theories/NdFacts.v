(** Entry formulas for the numpy primitives of [NdArray]. *)
From Verif Require Export NdArray.

Section Facts.
Context {K : StarRing}.
Add Ring Kr : (k_ring K).

Lemma shp_tab sh (f : list nat -> K) : shp (tab sh f) = sh.
Proof. reflexivity. Qed.

Lemma wf_tab sh (f : list nat -> K) : ndwf (tab sh f).
Proof. unfold ndwf, tab; cbn. rewrite map_length, seq_length. reflexivity. Qed.

Lemma get_tab sh (f : list nat -> K) idx : inr idx sh -> get (tab sh f) idx = f idx.
Proof.
  intros H. unfold get, tab; cbn [shp dat].
  pose proof (ravel_lt _ _ H) as Hlt.
  rewrite (nth_indep _ k0 (f (unravel sh 0))) by (rewrite map_length, seq_length; exact Hlt).
  rewrite (map_nth (fun n => f (unravel sh n)) (seq 0 (size sh)) 0).
  rewrite seq_nth by exact Hlt. cbn [Nat.add]. rewrite unravel_ravel by exact H. reflexivity.
Qed.

Lemma tab_ext sh (f g : list nat -> K) : (forall idx, inr idx sh -> f idx = g idx) -> tab sh f = tab sh g.
Proof.
  intros H. unfold tab. f_equal. apply map_ext_in. intros n Hn. apply in_seq in Hn.
  apply H. apply unravel_inr. lia.
Qed.

Lemma tab_get (a : nd K) : ndwf a -> tab (shp a) (get a) = a.
Proof.
  destruct a as [sh d]. unfold ndwf, tab, get; cbn. intros H. f_equal.
  apply (nth_ext _ _ k0 k0); [rewrite map_length, seq_length; auto|].
  intros n Hn. rewrite map_length, seq_length in Hn.
  rewrite (nth_indep _ k0 (nth (ravel sh (unravel sh 0)) d k0)) by (rewrite map_length, seq_length; exact Hn).
  rewrite (map_nth (fun n => nth (ravel sh (unravel sh n)) d k0) (seq 0 (size sh)) 0).
  rewrite seq_nth by exact Hn. cbn [Nat.add]. rewrite ravel_unravel by exact Hn. reflexivity.
Qed.

Lemma nd_eq (a b : nd K) :
  ndwf a -> ndwf b -> shp a = shp b -> (forall idx, inr idx (shp a) -> get a idx = get b idx) -> a = b.
Proof.
  intros Ha Hb Hs H. rewrite <- (tab_get a Ha), <- (tab_get b Hb), Hs. apply tab_ext.
  rewrite <- Hs. exact H.
Qed.

Lemma ndwfb_iff (a : nd K) : ndwfb a = true <-> ndwf a.
Proof. unfold ndwfb, ndwf. apply Nat.eqb_eq. Qed.

(** ** reshape *)
Lemma wf_reshape (a : nd K) sh : ndwf a -> size sh = size (shp a) -> ndwf (reshape a sh).
Proof. unfold ndwf, reshape; cbn. intros; congruence. Qed.

Lemma get_reshape (a : nd K) sh idx :
  size sh = size (shp a) -> inr idx sh -> get (reshape a sh) idx = get a (unravel (shp a) (ravel sh idx)).
Proof.
  intros Hs Hi. unfold get, reshape; cbn [shp dat]. rewrite ravel_unravel; [reflexivity|].
  rewrite <- Hs. apply ravel_lt; exact Hi.
Qed.

(** Same row-major position, same entry. *)
Lemma get_reshape' (a : nd K) sh idx j :
  ravel sh idx = ravel (shp a) j -> get (reshape a sh) idx = get a j.
Proof. intros E. unfold get, reshape; cbn [shp dat]. rewrite E. reflexivity. Qed.

(** ** transpose *)
Lemma shp_transpose (a : nd K) axes : shp (transpose a axes) = gather axes (shp a).
Proof. reflexivity. Qed.

Lemma wf_transpose (a : nd K) axes : ndwf (transpose a axes).
Proof. apply wf_tab. Qed.

Lemma get_transpose (a : nd K) axes idx :
  inr idx (gather axes (shp a)) -> get (transpose a axes) idx = get a (scatter axes idx).
Proof. intros H. unfold transpose. rewrite get_tab by exact H. reflexivity. Qed.

Lemma get_transpose_gather (a : nd K) axes j :
  is_perm axes -> length axes = ndim a -> inr j (shp a) ->
  get (transpose a axes) (gather axes j) = get a j.
Proof.
  intros Hp Hl Hj. rewrite get_transpose.
  - rewrite scatter_gather; [reflexivity|exact Hp|].
    rewrite (inr_length _ _ Hj). unfold ndim in Hl. lia.
  - apply gather_inr; [exact Hj|]. intros k Hk. apply is_perm_in in Hk; [|exact Hp].
    unfold ndim in Hl. lia.
Qed.

Lemma transpose_seq (a : nd K) n : ndwf a -> ndim a = n -> transpose a (seq 0 n) = a.
Proof.
  intros Hw <-. unfold ndim. apply nd_eq; [apply wf_transpose|exact Hw| |].
  - rewrite shp_transpose, gather_seq0. reflexivity.
  - rewrite shp_transpose, gather_seq0. intros idx Hi.
    rewrite get_transpose by (rewrite gather_seq0; exact Hi).
    rewrite <- (gather_seq0 idx) at 1. rewrite (inr_length _ _ Hi).
    rewrite scatter_gather; [reflexivity|apply is_perm_seq|].
    rewrite seq_length. apply inr_length; exact Hi.
Qed.

(** ** elementwise *)
Lemma shp_nconj (a : nd K) : shp (nconj a) = shp a.
Proof. reflexivity. Qed.
Lemma wf_nconj (a : nd K) : ndwf a -> ndwf (nconj a).
Proof. unfold ndwf, nconj; cbn. rewrite map_length. auto. Qed.
Lemma get_nconj (a : nd K) idx : get (nconj a) idx = kconj (get a idx).
Proof.
  unfold get, nconj; cbn [shp dat]. rewrite <- (kconj_0 (K:=K)) at 1. apply map_nth.
Qed.
Lemma shp_nscale c (a : nd K) : shp (nscale c a) = shp a.
Proof. reflexivity. Qed.
Lemma wf_nscale c (a : nd K) : ndwf a -> ndwf (nscale c a).
Proof. unfold ndwf, nscale; cbn. rewrite map_length. auto. Qed.
Lemma get_nscale c (a : nd K) idx : get (nscale c a) idx = (c * get a idx)%K.
Proof.
  unfold get, nscale; cbn [shp dat].
  replace (@k0 K) with (c * k0)%K at 1 by ring. apply (map_nth (fun x => c * x)%K).
Qed.
Lemma get_nadd (a b : nd K) idx : inr idx (shp a) -> get (nadd a b) idx = (get a idx + get b idx)%K.
Proof. intros H. unfold nadd. rewrite get_tab by exact H. reflexivity. Qed.
Lemma wf_nadd (a b : nd K) : ndwf (nadd a b).
Proof. apply wf_tab. Qed.

Lemma nth_map_const (A B : Type) (x : B) (l : list A) n : nth n (map (fun _ => x) l) x = x.
Proof. revert n; induction l as [|y l IH]; destruct n; cbn; auto. Qed.

Lemma get_zeros sh idx : get (zeros (K:=K) sh) idx = k0.
Proof. unfold get, zeros, tab; cbn [shp dat]. apply nth_map_const. Qed.

Lemma get_eye n i j : i < n -> j < n -> get (eye (K:=K) n) [i; j] = delta i j.
Proof.
  intros Hi Hj. unfold eye. rewrite get_tab; [reflexivity|].
  constructor; [exact Hi|]. constructor; [exact Hj|constructor].
Qed.

(** ** tensordot *)
Lemma get_tensordot (a b : nd K) axa axb ia ib :
  let fa := freeaxes (ndim a) axa in
  let fb := freeaxes (ndim b) axb in
  inr ia (gather fa (shp a)) -> inr ib (gather fb (shp b)) ->
  get (tensordot a b axa axb) (ia ++ ib) =
  msum (gather axa (shp a))
       (fun c => get a (scatter (fa ++ axa) (ia ++ c)) * get b (scatter (axb ++ fb) (c ++ ib)))%K.
Proof.
  intros fa fb Ha Hb. unfold tensordot. fold fa. fold fb.
  rewrite get_tab by (apply inr_app; assumption).
  assert (HL : length fa = length ia) by (rewrite (inr_length _ _ Ha), gather_length; reflexivity).
  rewrite HL. rewrite firstn_app, firstn_all, Nat.sub_diag, firstn_O, app_nil_r.
  rewrite skipn_app, skipn_all, Nat.sub_diag. reflexivity.
Qed.

Lemma wf_tensordot (a b : nd K) axa axb : ndwf (tensordot a b axa axb).
Proof. apply wf_tab. Qed.

Lemma shp_tensordot (a b : nd K) axa axb :
  shp (tensordot a b axa axb) =
  gather (freeaxes (ndim a) axa) (shp a) ++ gather (freeaxes (ndim b) axb) (shp b).
Proof. reflexivity. Qed.

(** Characterisation of the scattered index: it is the index whose free and
    contracted parts are as given. *)
Lemma tensordot_entry (a b : nd K) axa axb ja jb :
  NoDup axa -> (forall k, In k axa -> k < ndim a) ->
  NoDup axb -> (forall k, In k axb -> k < ndim b) ->
  inr ja (shp a) -> inr jb (shp b) ->
  get (tensordot a b axa axb)
      (gather (freeaxes (ndim a) axa) ja ++ gather (freeaxes (ndim b) axb) jb) =
  msum (gather axa (shp a))
       (fun c => get a (scatter (freeaxes (ndim a) axa ++ axa) (gather (freeaxes (ndim a) axa) ja ++ c)) *
                 get b (scatter (axb ++ freeaxes (ndim b) axb) (c ++ gather (freeaxes (ndim b) axb) jb)))%K.
Proof.
  intros. apply get_tensordot; apply gather_inr; try assumption;
    intros k Hk; apply freeaxes_in in Hk; unfold ndim in *; lia.
Qed.

(** ** concatenate *)
End Facts.
