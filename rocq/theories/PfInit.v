(** The constructor of local tensors. *)
From Verif Require Export PfShape.

Section Init.
Context {K : StarRing}.
(** Neighbours share a bond. *)
Definition joined (t u : nd K) : Prop := shp t <> [] /\ shp u <> [] /\ List.last (shp t) 0 = hd 0 (shp u).
Definition joined_at (ts : list (nd K)) k : Prop := joined (nth k ts dummy) (nth (S k) ts dummy).
(** The defaults of [cform] *)
Definition form_l (cl : option Z) : Z := match cl with Some z => z | None => 0%Z end.
Definition form_r (n : nat) (cr : option Z) : Z := match cr with Some Z0 | None => Z.of_nat n | Some z => z end.
Definition form_fits (n : nat) (cl cr : option Z) : Prop := (0 <= form_l cl < Z.of_nat n)%Z /\ (0 < form_r n cr <= Z.of_nat n)%Z.

Lemma check_pair (t u : nd K) ts : check_bonds (t :: u :: ts) =
  match shp t, shp u with [], _ => Err IndexError | _, [] => Err IndexError | _, e :: _ => if Nat.eqb (List.last (shp t) 0) e then check_bonds (u :: ts) else Err AssertionError end.
Proof. rewrite check_bonds_cons2. unfold shape_last, shape0. destruct (shp t) as [|d s]; [reflexivity|]. destruct (shp u) as [|e s']; reflexivity. Qed.

Lemma check_joined (ts : list (nd K)) : (forall k, S k < length ts -> joined_at ts k) -> check_bonds ts = Ok tt.
Proof.
  induction ts as [|t ts IH]; intros H; [reflexivity|]. destruct ts as [|u ts]; [reflexivity|]. rewrite check_pair.
  destruct (H 0 ltac:(cbn; lia)) as (H1 & H2 & H3). cbn [nth] in *. destruct (shp t) as [|d s]; [congruence|]. destruct (shp u) as [|e s']; [congruence|].
  cbn [hd] in H3. rewrite H3, Nat.eqb_refl. apply IH. intros k Hk. exact (H (S k) ltac:(cbn in *; lia)).
Qed.

Lemma check_first (ts : list (nd K)) k : S k < length ts -> (forall j, j < k -> joined_at ts j) -> ~ joined_at ts k ->
  check_bonds ts = Err (if orb (Nat.eqb (ndim (nth k ts dummy)) 0) (Nat.eqb (ndim (nth (S k) ts dummy)) 0) then IndexError else AssertionError).
Proof.
  revert k. induction ts as [|t ts IH]; intros k Hk Hj Hn; [cbn in Hk; lia|]. destruct ts as [|u ts]; [cbn in Hk; lia|]. rewrite check_pair.
  destruct k as [|k].
  - unfold joined_at, joined in Hn. cbn [nth] in *. unfold ndim. destruct (shp t) as [|d s]; [reflexivity|]. destruct (shp u) as [|e s']; [reflexivity|].
    cbn [hd] in Hn. destruct (Nat.eqb_spec (List.last (d :: s) 0) e) as [E|E]; [|reflexivity]. exfalso. apply Hn. repeat split; try discriminate. exact E.
  - destruct (Hj 0 ltac:(lia)) as (H1 & H2 & H3). cbn [nth] in H1, H2, H3. destruct (shp t) as [|d s]; [congruence|]. destruct (shp u) as [|e s'] eqn:Eu; [congruence|].
    cbn [hd] in H3. rewrite H3, Nat.eqb_refl. apply (IH k); [cbn in *; lia| |exact Hn]. intros j Hj'. exact (Hj (S j) ltac:(lia)).
Qed.

Lemma form_r_eq n cr : match cr with None => Z.of_nat n | Some z => if (z =? 0)%Z then Z.of_nat n else z end = form_r n cr.
Proof. destruct cr as [[|p|p]|]; reflexivity. Qed.

Lemma init_fits (ts : list (nd K)) cl cr : form_fits (length ts) cl cr -> lt_init ts (cl, cr) = (do _ <- check_bonds ts; Ok (mkLt ts (form_l cl) (form_r (length ts) cr))).
Proof.
  intros [H1 H2]. unfold lt_init. cbn [fst snd]. rewrite form_r_eq. fold (form_l cl). unfold passert.
  destruct (Z.ltb_spec 0 (Z.of_nat (length ts))); [|lia]. destruct (Z.leb_spec 0 (form_l cl)); [|lia]. destruct (Z.ltb_spec (form_l cl) (Z.of_nat (length ts))); [|lia]. cbn [andb].
  destruct (Z.ltb_spec 0 (form_r (length ts) cr)); [|lia]. destruct (Z.leb_spec (form_r (length ts) cr) (Z.of_nat (length ts))); [|lia]. reflexivity.
Qed.

Theorem init_accepts (ts : list (nd K)) cl cr : form_fits (length ts) cl cr -> (forall k, S k < length ts -> joined_at ts k) ->
  lt_init ts (cl, cr) = Ok (mkLt ts (form_l cl) (form_r (length ts) cr)).
Proof. intros H J. rewrite init_fits by exact H. rewrite (check_joined ts J). reflexivity. Qed.

Theorem init_first (ts : list (nd K)) cl cr k : form_fits (length ts) cl cr -> S k < length ts -> (forall j, j < k -> joined_at ts j) -> ~ joined_at ts k ->
  lt_init ts (cl, cr) = Err (if orb (Nat.eqb (ndim (nth k ts dummy)) 0) (Nat.eqb (ndim (nth (S k) ts dummy)) 0) then IndexError else AssertionError).
Proof. intros H Hk Hj Hn. rewrite init_fits by exact H. rewrite (check_first ts k Hk Hj Hn). reflexivity. Qed.

Theorem init_form (ts : list (nd K)) cl cr : ~ form_fits (length ts) cl cr -> lt_init ts (cl, cr) = Err AssertionError.
Proof.
  intros H. unfold lt_init. cbn [fst snd]. rewrite form_r_eq. fold (form_l cl). unfold passert.
  destruct (Z.ltb_spec 0 (Z.of_nat (length ts))); [|reflexivity]. destruct (Z.leb_spec 0 (form_l cl)); [|reflexivity]. destruct (Z.ltb_spec (form_l cl) (Z.of_nat (length ts))); [|reflexivity]. cbn [andb].
  destruct (Z.ltb_spec 0 (form_r (length ts) cr)); [|reflexivity]. destruct (Z.leb_spec (form_r (length ts) cr) (Z.of_nat (length ts))); [|reflexivity]. exfalso. apply H. split; lia.
Qed.

(** One of the three cases applies. *)
Lemma joined_dec (t u : nd K) : {joined t u} + {~ joined t u}.
Proof.
  unfold joined. destruct (list_eq_dec Nat.eq_dec (shp t) []) as [|H1]; [right; intros (H & _); auto|].
  destruct (list_eq_dec Nat.eq_dec (shp u) []) as [|H2]; [right; intros (_ & H & _); auto|]. destruct (Nat.eq_dec (List.last (shp t) 0) (hd 0 (shp u))); [left; auto|right; tauto].
Qed.
Theorem init_cases (ts : list (nd K)) cl cr : ~ form_fits (length ts) cl cr \/ (form_fits (length ts) cl cr /\
  ((forall k, S k < length ts -> joined_at ts k) \/ exists k, S k < length ts /\ (forall j, j < k -> joined_at ts j) /\ ~ joined_at ts k)).
Proof.
  assert (D : form_fits (length ts) cl cr \/ ~ form_fits (length ts) cl cr) by (unfold form_fits; lia). destruct D as [D|D]; [right|left; exact D]. split; [exact D|].
  assert (G : forall n, (forall k, k < n -> S k < length ts -> joined_at ts k) \/ exists k, S k < length ts /\ (forall j, j < k -> joined_at ts j) /\ ~ joined_at ts k).
  { induction n as [|n [IH|IH]]; [left; intros; lia| |right; exact IH].
    destruct (le_lt_dec (length ts) (S n)) as [Hn|Hn]; [left; intros k Hk Hk'; apply IH; lia|].
    destruct (joined_dec (nth n ts dummy) (nth (S n) ts dummy)) as [J|J].
    - left. intros k Hk Hk'. destruct (Nat.eq_dec k n) as [->|]; [exact J|apply IH; lia].
    - right. exists n. split; [exact Hn|]. split; [intros j Hj; apply IH; lia|exact J]. }
  destruct (G (length ts)) as [G'|G']; [left; intros k Hk; apply G'; lia|right; exact G'].
Qed.

(** What [MPArray(ltens)] accepts is valid if the tensors have two axes and the outer bonds are one. *)
Lemma joined_bonds (ts : list (nd K)) : ts <> [] -> Forall lt_ok ts -> (forall k, S k < length ts -> joined_at ts k) <-> (ts <> [] /\ Forall lt_ok ts /\ bonds ts (ldim (hd dummy ts)) (rdim (List.last ts dummy))).
Proof.
  intros Hne Ho. split.
  - intros J. split; [exact Hne|]. split; [exact Ho|]. apply check_bonds_inv; auto. apply check_joined; exact J.
  - intros (_ & _ & Hb) k Hk. destruct (joined_dec (nth k ts dummy) (nth (S k) ts dummy)) as [|N]; [assumption|exfalso].
    apply check_bonds_ok in Hb. destruct (init_cases ts None None) as [F|[_ [J|(j & Hj & Hi & Hn)]]].
    + apply F. unfold form_fits. cbn. destruct ts; [congruence|]. cbn [length]. lia.
    + exact (N (J k Hk)).
    + rewrite (check_first ts j Hj Hi Hn) in Hb. discriminate.
Qed.

Theorem new_valid (ts : list (nd K)) x : mpa_new ts = Ok x -> Forall lt_ok ts -> ldim (hd dummy ts) = 1 -> rdim (List.last ts dummy) = 1 ->
  mpa_ok x /\ lts x = ts /\ canonical_form x = (0%Z, Z.of_nat (length ts)) /\ cform_ok x /\ canon_true x.
Proof.
  intros E Ho Hl Hr. unfold mpa_new in E. destruct (init_cases ts None None) as [F|[F [J|(j & Hj & Hi & Hn)]]].
  - rewrite init_form in E by exact F. discriminate.
  - rewrite init_accepts in E by assumption. injection E as <-. cbn [form_l form_r].
    assert (Hne : ts <> []) by (intros ->; destruct F as [F _]; cbn in F; lia).
    destruct (proj1 (joined_bonds ts Hne Ho) J) as (_ & _ & Hb). rewrite Hl, Hr in Hb.
    assert (Hx : mpa_ok (mkLt ts 0 (Z.of_nat (length ts)))) by (split; [exact Hne|exact Hb]).
    split; [exact Hx|]. split; [reflexivity|]. split; [reflexivity|].
    destruct F as [F1 F2]. split; [unfold cform_ok, cf_ok, llen; cbn [lts lcan rcan] in *; cbn in F1; lia|].
    split; intros k Hk Hk'; unfold llen in *; cbn [lts lcan rcan] in *; lia.
  - rewrite (init_first ts None None j F Hj Hi Hn) in E. discriminate.
Qed.

(** A copy is the same value; it is refused if the recorded form does not fit. *)
Theorem copy_same (x : ltens K) : mpa_ok x -> cform_ok x -> mpa_copy x = Ok x.
Proof.
  intros [Hne Hb] Hc. unfold mpa_copy, lt_copy. rewrite init_fits.
  - rewrite (check_bonds_ok _ _ _ Hb). cbn [bind]. destruct x as [ts l r]. cbn [lts lcan rcan form_l form_r] in *. unfold cform_ok, cf_ok, llen in Hc. cbn [lts lcan rcan] in Hc. destruct r; [lia|reflexivity|lia].
  - unfold cform_ok, cf_ok, llen in Hc. unfold form_fits, form_l, form_r. destruct (rcan x); lia.
Qed.
End Init.
