(** Local tensors as matrices, replacing two neighbouring tensors. *)
From Verif Require Export CanonSpec PfSites.

Section Mats.
Context {K : StarRing}.
Add Ring Kr : (k_ring K).

(** ** Flattened index sums *)
Lemma bigsum_left l p (g : nat -> K) :
  bigsum (l * size p) g = bigsum l (fun a => msum p (fun i => g (ravel (l :: p) (a :: i)))).
Proof.
  rewrite bigsum_prod. apply bigsum_ext. intros a Ha. rewrite msum_flat. apply bigsum_ext. intros j Hj.
  cbn [ravel]. rewrite ravel_unravel by exact Hj. reflexivity.
Qed.

Lemma bigsum_right p r (g : nat -> K) :
  bigsum (size p * r) g = bigsum r (fun b => msum p (fun i => g (ravel (p ++ [r]) (i ++ [b])))).
Proof.
  rewrite bigsum_prod, <- msum_bigsum_swap, msum_flat. apply bigsum_ext. intros j Hj. apply bigsum_ext. intros b Hb.
  rewrite ravel_app by (apply unravel_inr; exact Hj). rewrite ravel_unravel, size_single by exact Hj.
  cbn [ravel]. rewrite size_nil. f_equal. lia.
Qed.

Lemma inr2 i j m n : i < m -> j < n -> inr [i; j] [m; n].
Proof. intros. repeat constructor; assumption. Qed.

Lemma size2 m n : size [m; n] = m * n.
Proof. unfold size. cbn. lia. Qed.

(** ** Matrix of a tensor: rows (left bond, legs) *)
Definition lmat (t : nd K) : nd K := reshape t [ldim t * size (pdims t); rdim t].
Definition rmat (t : nd K) : nd K := reshape t [ldim t; size (pdims t) * rdim t].

Lemma size_lt (t : nd K) : lt_ok t -> size (shp t) = ldim t * size (pdims t) * rdim t.
Proof. intros H. rewrite (lt_ok_shp t H), size_cons, size_app, size_single. lia. Qed.

Lemma lmat_reshape (t : nd K) : lt_ok t -> 0 < size (shp t) ->
  reshape_py t [-1; Z.of_nat (rdim t)]%Z = Ok (lmat t).
Proof.
  intros Ht Hp. pose proof (size_lt t Ht) as Es. unfold reshape_py.
  assert (R : reshape_to [-1; Z.of_nat (rdim t)]%Z [ldim t * size (pdims t); rdim t]).
  { apply (RT_one [] _ [rdim t]); [rewrite size_nil; lia|rewrite size_single; nia]. }
  rewrite Es. rewrite <- (size2 (ldim t * size (pdims t)) (rdim t)). rewrite (resolve_shape_spec _ _ R). reflexivity.
Qed.
Lemma rmat_reshape (t : nd K) : lt_ok t -> 0 < size (shp t) ->
  reshape_py t [Z.of_nat (ldim t); -1]%Z = Ok (rmat t).
Proof.
  intros Ht Hp. pose proof (size_lt t Ht) as Es. unfold reshape_py.
  assert (R : reshape_to [Z.of_nat (ldim t); -1]%Z [ldim t; size (pdims t) * rdim t]).
  { apply (RT_one [ldim t] _ []); [rewrite size_single; nia|rewrite size_nil; lia]. }
  rewrite Es, <- Nat.mul_assoc. rewrite <- (size2 (ldim t) (size (pdims t) * rdim t)). rewrite (resolve_shape_spec _ _ R). reflexivity.
Qed.

Lemma lmat_is_mat (t : nd K) : lt_ok t -> 0 < size (shp t) -> is_mat (lmat t) (ldim t * size (pdims t)) (rdim t).
Proof.
  intros Ht Hp. pose proof (size_lt t Ht) as Es. split; [reflexivity|]. split.
  - apply wf_reshape; [apply Ht|]. rewrite Es, size2. reflexivity.
  - split; nia.
Qed.
Lemma rmat_is_mat (t : nd K) : lt_ok t -> 0 < size (shp t) -> is_mat (rmat t) (ldim t) (size (pdims t) * rdim t).
Proof.
  intros Ht Hp. pose proof (size_lt t Ht) as Es. split; [reflexivity|]. split.
  - apply wf_reshape; [apply Ht|]. rewrite Es, size2. lia.
  - split; nia.
Qed.

Lemma get_lmat (t : nd K) a i b : lt_ok t -> a < ldim t -> inr i (pdims t) -> b < rdim t ->
  get (lmat t) [ravel (ldim t :: pdims t) (a :: i); b] = ent t a i b.
Proof.
  intros Ht Ha Hi Hb. unfold lmat, ent. apply get_reshape'. rewrite (lt_ok_shp t Ht).
  change (ldim t :: pdims t ++ [rdim t]) with ((ldim t :: pdims t) ++ [rdim t]). change (a :: i ++ [b]) with ((a :: i) ++ [b]).
  rewrite ravel_app by (apply inr_cons; assumption). cbn [ravel]. rewrite !size_single, size_nil. lia.
Qed.
Lemma get_rmat (t : nd K) a i b : lt_ok t -> a < ldim t -> inr i (pdims t) -> b < rdim t ->
  get (rmat t) [a; ravel (pdims t ++ [rdim t]) (i ++ [b])] = ent t a i b.
Proof.
  intros Ht Ha Hi Hb. unfold rmat, ent. apply get_reshape'. rewrite (lt_ok_shp t Ht).
  cbn [ravel]. rewrite size_app, !size_single, size_nil. lia.
Qed.

(** ** Tensors from matrices *)
Lemma zshape_reshape (a : nd K) sh : size sh = size (shp a) -> reshape_py a (zshape sh) = Ok (reshape a sh).
Proof. intros E. unfold reshape_py, zshape. rewrite <- E. rewrite (resolve_shape_spec _ _ (RT_all sh)). reflexivity. Qed.

Lemma lten_reshape (q : nd K) l p m k : shp q = [m; k] -> m = l * size p -> 0 < m ->
  reshape_py q (zshape (l :: p) ++ [-1]%Z) = Ok (reshape q (l :: p ++ [k])).
Proof.
  intros Es Em Hm. unfold reshape_py.
  assert (R : reshape_to (zshape (l :: p) ++ [-1]%Z) ((l :: p) ++ [k])).
  { apply (RT_one (l :: p) k []); [rewrite size_cons; nia|rewrite size_nil; lia]. }
  replace (size (shp q)) with (size ((l :: p) ++ [k])).
  - rewrite (resolve_shape_spec _ _ R). reflexivity.
  - rewrite Es, size2, size_app, size_cons, size_single. nia.
Qed.
Lemma rten_reshape (q : nd K) p r k n : shp q = [k; n] -> n = size p * r -> 0 < n ->
  reshape_py q ((-1)%Z :: zshape (p ++ [r])) = Ok (reshape q (k :: p ++ [r])).
Proof.
  intros Es Em Hm. unfold reshape_py.
  assert (R : reshape_to ((-1)%Z :: zshape (p ++ [r])) (k :: p ++ [r])).
  { apply (RT_one [] k (p ++ [r])); [rewrite size_nil; lia|rewrite size_app, size_single; nia]. }
  replace (size (shp q)) with (size (k :: p ++ [r])).
  - rewrite (resolve_shape_spec _ _ R). reflexivity.
  - rewrite Es, size2, size_cons, size_app, size_single. nia.
Qed.

Lemma lten_spec (q : nd K) l p m k : shp q = [m; k] -> ndwf q -> m = l * size p ->
  let t := reshape q (l :: p ++ [k]) in
  lt_ok t /\ ldim t = l /\ pdims t = p /\ rdim t = k /\ size (shp t) = m * k /\
  (forall a i b, a < l -> inr i p -> b < k -> ent t a i b = get q [ravel (l :: p) (a :: i); b]) /\
  ((forall c d, c < k -> d < k -> bigsum m (fun i => kconj (get q [i; c]) * get q [i; d])%K = delta c d) -> left_iso t).
Proof.
  intros Es Hw Em t. assert (E : shp t = l :: p ++ [k]) by reflexivity.
  assert (El := ldim_mk _ _ _ E). assert (Ep := pdims_mk _ _ _ _ E). assert (Er := rdim_mk _ _ _ _ E).
  assert (Sz : size (l :: p ++ [k]) = size (shp q)) by (rewrite Es, size2, size_cons, size_app, size_single; nia).
  assert (Ent : forall a i b, a < l -> inr i p -> b < k -> ent t a i b = get q [ravel (l :: p) (a :: i); b]).
  { intros a i b Ha Hi Hb. unfold ent, t. apply get_reshape'. rewrite Es.
    change (l :: p ++ [k]) with ((l :: p) ++ [k]). change (a :: i ++ [b]) with ((a :: i) ++ [b]).
    rewrite ravel_app by (apply inr_cons; assumption). cbn [ravel]. rewrite !size_single, size_nil. lia. }
  split; [eapply lt_ok_mk; [apply wf_reshape; [exact Hw|exact Sz]|exact E]|].
  split; [exact El|]. split; [exact Ep|]. split; [exact Er|].
  split; [rewrite E, Sz, Es, size2; reflexivity|]. split; [exact Ent|].
  intros H c d Hc Hd. rewrite Er in Hc, Hd. rewrite El, Ep, <- (H c d Hc Hd), Em, bigsum_left.
  apply bigsum_ext. intros a Ha. apply msum_ext. intros i Hi. rewrite !Ent by assumption. reflexivity.
Qed.

Lemma rten_spec (q : nd K) p r k n : shp q = [k; n] -> ndwf q -> n = size p * r ->
  let t := reshape q (k :: p ++ [r]) in
  lt_ok t /\ ldim t = k /\ pdims t = p /\ rdim t = r /\ size (shp t) = k * n /\
  (forall a i b, a < k -> inr i p -> b < r -> ent t a i b = get q [a; ravel (p ++ [r]) (i ++ [b])]) /\
  ((forall c d, c < k -> d < k -> bigsum n (fun j => get q [c; j] * kconj (get q [d; j]))%K = delta c d) -> right_iso t).
Proof.
  intros Es Hw Em t. assert (E : shp t = k :: p ++ [r]) by reflexivity.
  assert (El := ldim_mk _ _ _ E). assert (Ep := pdims_mk _ _ _ _ E). assert (Er := rdim_mk _ _ _ _ E).
  assert (Sz : size (k :: p ++ [r]) = size (shp q)) by (rewrite Es, size2, size_cons, size_app, size_single; nia).
  assert (Ent : forall a i b, a < k -> inr i p -> b < r -> ent t a i b = get q [a; ravel (p ++ [r]) (i ++ [b])]).
  { intros a i b Ha Hi Hb. unfold ent, t. apply get_reshape'. rewrite Es.
    cbn [ravel]. rewrite size_app, !size_single, size_nil. rewrite Em. lia. }
  split; [eapply lt_ok_mk; [apply wf_reshape; [exact Hw|exact Sz]|exact E]|].
  split; [exact El|]. split; [exact Ep|]. split; [exact Er|].
  split; [rewrite E, Sz, Es, size2; reflexivity|]. split; [exact Ent|].
  intros H c d Hc Hd. rewrite El in Hc, Hd. rewrite Er, Ep, <- (H c d Hc Hd), Em, bigsum_right.
  apply bigsum_ext. intros a Ha. apply msum_ext. intros i Hi. rewrite !Ent by assumption. reflexivity.
Qed.

(** A matrix as a local tensor without legs. *)
Lemma mat_lt (a : nd K) m n : shp a = [m; n] -> ndwf a ->
  lt_ok a /\ ldim a = m /\ pdims a = [] /\ rdim a = n /\ forall i j, ent a i [] j = get a [i; j].
Proof.
  intros E Hw. assert (E' : shp a = m :: [] ++ [n]) by exact E.
  split; [eapply lt_ok_mk; [exact Hw|exact E']|]. split; [eapply ldim_mk; exact E'|].
  split; [eapply pdims_mk; exact E'|]. split; [eapply rdim_mk; exact E'|]. reflexivity.
Qed.

Lemma mat_T_spec (a : nd K) m n : shp a = [m; n] ->
  shp (mat_T a) = [n; m] /\ ndwf (mat_T a) /\ forall i j, i < n -> j < m -> get (mat_T a) [i; j] = get a [j; i].
Proof.
  intros E. unfold mat_T. rewrite shp_transpose, E. split; [reflexivity|]. split; [apply wf_transpose|].
  intros i j Hi Hj. rewrite get_transpose; [reflexivity|]. rewrite E. apply inr2; assumption.
Qed.

(** matdot with a matrix on the left or right *)
Lemma matdot_left (r u : nd K) k n : shp r = [k; n] -> ndwf r -> lt_ok u -> ldim u = n ->
  matdot_py r u = Ok (matdot r u) /\ lt_ok (matdot r u) /\ ldim (matdot r u) = k /\ pdims (matdot r u) = pdims u /\
  rdim (matdot r u) = rdim u /\
  forall a j b, a < k -> inr j (pdims u) -> b < rdim u ->
    ent (matdot r u) a j b = bigsum n (fun c => get r [a; c] * ent u c j b)%K.
Proof.
  intros Es Hw Hu El. destruct (mat_lt r k n Es Hw) as [Hr [L [P [R G]]]].
  split; [unfold matdot_py; rewrite R, El, Nat.eqb_refl; reflexivity|].
  split; [apply lt_ok_matdot; assumption|]. split; [rewrite ldim_matdot by assumption; exact L|].
  split; [rewrite pdims_matdot by assumption; rewrite P; reflexivity|]. split; [apply rdim_matdot; assumption|].
  intros a j b Ha Hj Hb. change j with ([] ++ j) at 1. rewrite ent_matdot; auto.
  - rewrite R. reflexivity.
  - rewrite L; exact Ha.
  - rewrite P. constructor.
Qed.
Lemma matdot_right (u r : nd K) n k : shp r = [n; k] -> ndwf r -> lt_ok u -> rdim u = n ->
  matdot_py u r = Ok (matdot u r) /\ lt_ok (matdot u r) /\ ldim (matdot u r) = ldim u /\ pdims (matdot u r) = pdims u /\
  rdim (matdot u r) = k /\
  forall a j b, a < ldim u -> inr j (pdims u) -> b < k ->
    ent (matdot u r) a j b = bigsum n (fun c => ent u a j c * get r [c; b])%K.
Proof.
  intros Es Hw Hu El. destruct (mat_lt r n k Es Hw) as [Hr [L [P [R G]]]].
  split; [unfold matdot_py; rewrite L, El, Nat.eqb_refl; reflexivity|].
  split; [apply lt_ok_matdot; assumption|]. split; [apply ldim_matdot; assumption|].
  split; [rewrite pdims_matdot by assumption; rewrite P, app_nil_r; reflexivity|].
  split; [rewrite rdim_matdot by assumption; exact R|].
  intros a j b Ha Hj Hb. rewrite <- (app_nil_r j) at 1. rewrite ent_matdot; auto.
  - rewrite El. reflexivity.
  - rewrite P. constructor.
  - rewrite R; exact Hb.
Qed.

(** ** update of two neighbouring sites *)
Definition upd_form (l r k : Z) (f : option string) : Z * Z :=
  if flag_is f "left" && (0 <=? l - k)%Z then (Z.max (k + 1) l, r)
  else if flag_is f "right" && (-1 <=? k - r)%Z then (l, Z.min k r)
  else (Z.min k l, Z.max (k + 1) r).

Lemma lt_update1_at (x1 x2 : list (nd K)) t t' l r k f : Z.of_nat (length x1) = k ->
  lt_update1 (mkLt (x1 ++ t :: x2) l r) k t' f =
  Ok (mkLt (x1 ++ t' :: x2) (fst (upd_form l r k f)) (snd (upd_form l r k f))).
Proof.
  intros <-. unfold lt_update1, llen, upd_form. cbn [lts lcan rcan].
  rewrite pyidx_in by (rewrite app_length; cbn; lia). rewrite set_nth_at.
  destruct (flag_is f "left" && _)%bool; [reflexivity|]. destruct (flag_is f "right" && _)%bool; reflexivity.
Qed.

Lemma range_two k : pyrange k (k + 2) 1 = [k; k + 1]%Z.
Proof.
  unfold pyrange, range_len. change (0 <? 1)%Z with true. cbn iota.
  replace (k + 2 - k + 1 - 1)%Z with 2%Z by lia. change (Z.to_nat (2 / 1)) with 2. cbn [seq map]. repeat f_equal; lia.
Qed.

Lemma update_two (x1 x2 : list (nd K)) t u t' u' l r f1 f2 k : Z.of_nat (length x1) = k ->
  lt_ok t -> lt_ok u -> lt_ok t' -> lt_ok u' -> ldim t' = ldim t -> rdim t' = ldim u' -> rdim u' = rdim u ->
  lt_update_slice (mkLt (x1 ++ t :: u :: x2) l r) (mkSlice (Some k) (Some (k + 2)%Z) None) [t'; u'] (CSeq [f1; f2]) =
  let p := upd_form l r k f1 in
  let q := upd_form (fst p) (snd p) (k + 1) f2 in
  Ok (mkLt (x1 ++ t' :: u' :: x2) (fst q) (snd q)).
Proof.
  intros Ek Ht Hu Ht' Hu' E1 E2 E3. unfold lt_update_slice, slice_indices. cbn [s_start s_stop s_step lts].
  change (1 =? 0)%Z with false. change (1 <? 0)%Z with false. cbn iota.
  assert (L : llen (mkLt (x1 ++ t :: u :: x2) l r) = length x1 + S (S (length x2))).
  { unfold llen. cbn [lts]. rewrite app_length. reflexivity. }
  rewrite L. replace (k <? 0)%Z with false by (symmetry; apply Z.ltb_ge; lia).
  replace (k + 2 <? 0)%Z with false by (symmetry; apply Z.ltb_ge; lia).
  replace (Z.min k (Z.of_nat (length x1 + S (S (length x2))))) with k by lia.
  replace (Z.min (k + 2) (Z.of_nat (length x1 + S (S (length x2))))) with (k + 2)%Z by lia.
  cbn [bind]. rewrite <- Ek at 1. rewrite pyget_at by reflexivity. cbn [bind].
  rewrite (shape0_lt t Ht). cbn [bind]. cbn [pyget pyidx length Z.leb Z.ltb Z.compare].
  change (pyget [t'; u'] 0) with (Ok t'). cbn [bind]. rewrite (shape0_lt t' Ht'). cbn [bind].
  rewrite E1, Nat.eqb_refl. unfold passert at 1. rewrite check_bonds_cons2, (shape_last_lt t' Ht'), (shape0_lt u' Hu').
  cbn [bind]. rewrite E2, Nat.eqb_refl. cbn [passert check_bonds bind].
  replace (k + 2 - 1)%Z with (Z.of_nat (S (length x1))) by lia.
  replace (x1 ++ t :: u :: x2) with ((x1 ++ [t]) ++ u :: x2) at 1 by (rewrite <- app_assoc; reflexivity).
  rewrite pyget_at by (rewrite app_length; cbn; lia). cbn [bind]. rewrite (shape_last_lt u Hu). cbn [bind].
  change (pyget [t'; u'] (-1)) with (Ok u'). cbn [bind]. rewrite (shape_last_lt u' Hu'). cbn [bind].
  rewrite E3, Nat.eqb_refl. unfold passert. rewrite range_two. cbn [lt_update_loop].
  rewrite (lt_update1_at x1 (u :: x2)) by exact Ek. cbn [bind].
  replace (x1 ++ t' :: u :: x2) with ((x1 ++ [t']) ++ u :: x2) by (rewrite <- app_assoc; reflexivity).
  rewrite (lt_update1_at (x1 ++ [t']) x2) by (rewrite app_length; cbn; lia).
  cbn [bind]. rewrite <- app_assoc. reflexivity.
Qed.

(** ** Chains up to a change of gauge *)
Definition pos (ts : list (nd K)) : Prop := Forall (fun t => 0 < size (shp t)) ts.
(** Bonds that match from [l] to [r]; the sites are not empty. *)
Definition chain_ok (ts : list (nd K)) (l r : nat) : Prop := ts <> [] /\ bonds ts l r /\ pos ts.

Definition bdims (ts : list (nd K)) : list nat := map ldim (tl ts).

(** Sites in the left region fulfil [P], those in the right region [Q]. *)
Definition regions (P Q : nd K -> Prop) (x : ltens K) : Prop :=
  (forall k, (Z.of_nat k < lcan x)%Z -> k < llen x -> P (nth k (lts x) dummy)) /\
  (forall k, (rcan x <= Z.of_nat k)%Z -> k < llen x -> Q (nth k (lts x) dummy)).
(** Tall (wide) matrices in the left (right) region. *)
Definition tall (t : nd K) : Prop := rdim t <= ldim t * size (pdims t).
Definition wide (t : nd K) : Prop := ldim t <= size (pdims t) * rdim t.
Definition canon_dims : ltens K -> Prop := regions tall wide.

(** [z] represents the same array as [x], with bonds that are not larger. *)
Definition sim (l r : nat) (x z : ltens K) : Prop :=
  chain_ok (lts z) l r /\ mshape z = mshape x /\ Forall2 le (ranks z) (ranks x) /\
  (forall is a b, Forall2 inr is (mshape x) -> a < l -> b < r -> amp (lts z) is a b = amp (lts x) is a b) /\
  (canon_true x -> canon_true z) /\ (canon_dims x -> canon_dims z).

Lemma Forall2_le_refl l : Forall2 le l l.
Proof. induction l; constructor; auto. Qed.
Lemma Forall2_le_trans a b c : Forall2 le a b -> Forall2 le b c -> Forall2 le a c.
Proof. intros H; revert c; induction H; intros c H2; inversion H2; subst; constructor; [lia|auto]. Qed.

Lemma sim_refl l r x : chain_ok (lts x) l r -> sim l r x x.
Proof. intros H. split; [exact H|]. split; [reflexivity|]. split; [apply Forall2_le_refl|]. auto. Qed.
Lemma sim_trans l r x y z : sim l r x y -> sim l r y z -> sim l r x z.
Proof.
  intros [A1 [A2 [A3 [A4 [A5 A6]]]]] [B1 [B2 [B3 [B4 [B5 B6]]]]]. split; [exact B1|]. split; [congruence|].
  split; [eapply Forall2_le_trans; eassumption|]. split; [|split; auto].
  intros is a b Hi Ha Hb. rewrite B4 by (try rewrite A2; assumption). apply A4; assumption.
Qed.
Lemma sim_len l r x z : sim l r x z -> llen z = llen x.
Proof. intros [_ [E _]]. rewrite <- !mshape_length, E. reflexivity. Qed.

Lemma Forall2_le_around a x y b : x <= y -> Forall2 le (a ++ x :: b) (a ++ y :: b).
Proof. intros. apply Forall2_app; [apply Forall2_le_refl|]. constructor; [assumption|apply Forall2_le_refl]. Qed.

Lemma ranks_two (x1 x2 : list (nd K)) (t : nd K) : exists a b, forall (t' u' : nd K) l' r', ldim t' = ldim t ->
  ranks (mkLt (x1 ++ t' :: u' :: x2) l' r') = a ++ ldim u' :: b.
Proof.
  destruct x1 as [|y x1].
  - exists [], (map ldim x2). reflexivity.
  - exists (map ldim (x1 ++ [t])), (map ldim x2). intros t' u' l' r' E. unfold ranks. cbn [lts app tl].
    rewrite !map_app. cbn [map]. rewrite E, <- app_assoc. reflexivity.
Qed.

Lemma canon_two (P Q : nd K -> Prop) (x1 x2 : list (nd K)) t u t' u' l r l' r' :
  regions P Q (mkLt (x1 ++ t :: u :: x2) l r) ->
  (l' <= Z.of_nat (length x1) + 1)%Z -> (Z.min l' (Z.of_nat (length x1)) <= l)%Z ->
  (l' = Z.of_nat (length x1) + 1 -> P t')%Z ->
  (Z.of_nat (length x1) + 1 <= r')%Z -> (r <= Z.max r' (Z.of_nat (length x1) + 2))%Z ->
  (r' = Z.of_nat (length x1) + 1 -> Q u')%Z ->
  regions P Q (mkLt (x1 ++ t' :: u' :: x2) l' r').
Proof.
  intros [HL HR] A1 A2 A3 B1 B2 B3. unfold regions, llen in *. cbn [lts lcan rcan] in *.
  split; intros k Hk Hlen; rewrite (around_len _ x1 t u) in Hlen.
  - destruct (Nat.lt_ge_cases k (length x1)).
    + rewrite (nth_around _ x1 t u t' u' x2 k) by lia. apply HL; [lia|exact Hlen].
    + assert (k = length x1) by lia. subst k. rewrite app_nth2, Nat.sub_diag by lia. cbn [nth]. apply A3. lia.
  - destruct (Nat.lt_ge_cases k (length x1 + 2)).
    + assert (k = length x1 + 1) by lia. subst k. rewrite app_nth2 by lia.
      replace (length x1 + 1 - length x1) with 1 by lia. cbn [nth]. apply B3. lia.
    + rewrite (nth_around _ x1 t u t' u' x2 k) by lia. apply HR; [lia|exact Hlen].
Qed.

(** Same contraction of the two tensors. *)
Definition same_pair (t u t' u' : nd K) : Prop :=
  lt_ok t' /\ lt_ok u' /\ ldim t' = ldim t /\ pdims t' = pdims t /\ rdim t' = ldim u' /\ rdim u' = rdim u /\ pdims u' = pdims u.
Definition same_cont (t u t' u' : nd K) : Prop :=
  forall a i j b, a < ldim t -> inr i (pdims t) -> inr j (pdims u) -> b < rdim u ->
    bigsum (rdim t') (fun c => ent t' a i c * ent u' c j b)%K = bigsum (rdim t) (fun c => ent t a i c * ent u c j b)%K.

Lemma amp_pair (t u : nd K) ts i j is a b :
  amp (t :: u :: ts) (i :: j :: is) a b =
  bigsum (rdim u) (fun d => bigsum (rdim t) (fun c => ent t a i c * ent u c j d) * amp ts is d b)%K.
Proof.
  cbn [amp]. transitivity (bigsum (rdim t) (fun c => bigsum (rdim u) (fun d => ent t a i c * (ent u c j d * amp ts is d b)))%K).
  - apply bigsum_ext. intros c Hc. rewrite bigsum_mul_l. reflexivity.
  - rewrite bigsum_swap. apply bigsum_ext. intros d Hd. rewrite <- bigsum_mul_r. apply bigsum_ext. intros c Hc. ring.
Qed.

Lemma amp_around (x1 x2 : list (nd K)) t u t' u' l is a b :
  bonds (x1 ++ t :: u :: x2) l b -> bonds (x1 ++ t' :: u' :: x2) l b -> same_pair t u t' u' -> same_cont t u t' u' ->
  Forall2 inr is (map pdims (x1 ++ t :: u :: x2)) -> a < l -> forall e,
  amp (x1 ++ t' :: u' :: x2) is a e = amp (x1 ++ t :: u :: x2) is a e.
Proof.
  intros B B' [S1 [S2 [S3 [S4 [S5 [S6 S7]]]]]] SC Hi Ha e. apply bonds_two in B. destruct B as [C1 [C2 [C3 [C4 C5]]]].
  apply bonds_two in B'. destruct B' as [D1 _].
  rewrite map_app in Hi. cbn [map] in Hi. apply Forall2_app_inv_r in Hi.
  destruct Hi as [i1 [i2 [H1 [H2 ->]]]]. inversion H2 as [|i ? i2' ? Hi1 Hi2]; subst. inversion Hi2 as [|j ? i3 ? Hj Hi3]; subst.
  assert (L1 : length i1 = length x1) by (rewrite (Forall2_len _ _ _ _ _ H1), map_length; reflexivity).
  rewrite (amp_app x1 _ i1 _ a e l (ldim t')) by assumption. rewrite (amp_app x1 _ i1 _ a e l (ldim t)) by assumption.
  rewrite S3. apply bigsum_ext. intros c Hc. f_equal. rewrite !amp_pair, S6. apply bigsum_ext. intros d Hd. f_equal.
  apply SC; assumption.
Qed.

Lemma sim_two (x1 x2 : list (nd K)) t u t' u' l r cl cr cl' cr' :
  chain_ok (x1 ++ t :: u :: x2) l r -> same_pair t u t' u' -> same_cont t u t' u' ->
  0 < size (shp t') -> 0 < size (shp u') -> rdim t' <= rdim t ->
  (canon_true (mkLt (x1 ++ t :: u :: x2) cl cr) -> canon_true (mkLt (x1 ++ t' :: u' :: x2) cl' cr')) ->
  (canon_dims (mkLt (x1 ++ t :: u :: x2) cl cr) -> canon_dims (mkLt (x1 ++ t' :: u' :: x2) cl' cr')) ->
  sim l r (mkLt (x1 ++ t :: u :: x2) cl cr) (mkLt (x1 ++ t' :: u' :: x2) cl' cr').
Proof.
  intros [Hne [B P]] SP SC P1 P2 HR HC HD. pose proof SP as [S1 [S2 [S3 [S4 [S5 [S6 S7]]]]]].
  pose proof (bonds_two _ _ _ _ _ _ B) as [C1 [C2 [C3 [C4 C5]]]].
  assert (B' : bonds (x1 ++ t' :: u' :: x2) l r).
  { apply bonds_two_mk; auto; [rewrite S3; exact C1|rewrite S6; exact C5]. }
  split; [split; [cbn [lts]; destruct x1; discriminate|split; [exact B'|]]|].
  - cbn [lts]. unfold pos in *. apply Forall_app in P. destruct P as [Q1 Q2]. inversion Q2 as [|? ? Q3 Q4]; subst.
    inversion Q4 as [|? ? Q5 Q6]; subst. apply Forall_app. split; [exact Q1|]. constructor; [exact P1|]. constructor; [exact P2|exact Q6].
  - split; [unfold mshape; cbn [lts]; rewrite !map_app; cbn [map]; rewrite S4, S7; reflexivity|]. split.
    + destruct (ranks_two x1 x2 t) as [p [q E]]. rewrite !E by auto. apply Forall2_le_around. lia.
    + split; [|split; [exact HC|exact HD]]. cbn [lts]. intros is a b Hi Ha Hb. unfold mshape in Hi. cbn [lts] in Hi.
      eapply amp_around; eauto.
Qed.

End Mats.
