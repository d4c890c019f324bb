(** Model of mpnum/linalg.py ([eig], [eig_sum]) and of the parts of mparray.py
    that work the same way: [sandwich] and variational compression. *)
From Coq Require Import String.
From Verif Require Export NamedNd MpCanon.
Open Scope string_scope.
Open Scope list_scope.

Section Linalg.
Context {K : StarRing}.

(** [np.array(1, ndmin=n)] *)
Definition np_ones (n : nat) : nd K := mkNd (repeat 1 n) [k1].
(** [a.T] *)
Definition np_T (a : nd K) : nd K := transpose a (rev (seq 0 (ndim a))).

(** ** Environments for an operator *)
(** linalg.py 27-86: [_eig_leftvec_add]. *)
Definition eig_leftvec_add (leftvec mpo_lten mps_lten : nd K) (mps_lten2 : option (nd K)) : res (nd K) :=
  let leftvec_names := ["mps_bond"; "mpo_bond"; "cc_mps_bond"] in
  let mpo_names := ["left_mpo_bond"; "phys_row"; "phys_col"; "right_mpo_bond"] in
  let mps_names := ["left_mps_bond"; "phys"; "right_mps_bond"] in
  do lv <- named_new leftvec leftvec_names;
  do w <- named_new mpo_lten mpo_names;
  do a <- named_new mps_lten mps_names;
  do a2 <- match mps_lten2 with None => Ok a | Some t => named_new t mps_names end;
  do lv <- ntensordot lv a [("mps_bond", "left_mps_bond")];
  do lv <- nrename lv [("right_mps_bond", "mps_bond")];
  do lv <- ntensordot lv w [("mpo_bond", "left_mpo_bond"); ("phys", "phys_col")];
  do ac <- named_conj a2;
  do lv <- ntensordot lv ac [("cc_mps_bond", "left_mps_bond"); ("phys_row", "phys")];
  do lv <- nrename lv [("right_mpo_bond", "mpo_bond"); ("right_mps_bond", "cc_mps_bond")];
  nto_array lv leftvec_names.

(** linalg.py 89-128: [_eig_rightvec_add]. *)
Definition eig_rightvec_add (rightvec mpo_lten mps_lten : nd K) : res (nd K) :=
  let rightvec_names := ["mps_bond"; "mpo_bond"; "cc_mps_bond"] in
  let mpo_names := ["left_mpo_bond"; "phys_row"; "phys_col"; "right_mpo_bond"] in
  let mps_names := ["left_mps_bond"; "phys"; "right_mps_bond"] in
  do rv <- named_new rightvec rightvec_names;
  do w <- named_new mpo_lten mpo_names;
  do a <- named_new mps_lten mps_names;
  do rv <- ntensordot rv a [("mps_bond", "right_mps_bond")];
  do rv <- nrename rv [("left_mps_bond", "mps_bond")];
  do rv <- ntensordot rv w [("mpo_bond", "right_mpo_bond"); ("phys", "phys_col")];
  do ac <- named_conj a;
  do rv <- ntensordot rv ac [("cc_mps_bond", "right_mps_bond"); ("phys_row", "phys")];
  do rv <- nrename rv [("left_mpo_bond", "mpo_bond"); ("left_mps_bond", "cc_mps_bond")];
  nto_array rv rightvec_names.

(** linalg.py 131-141: [_eig_leftvec_add_mps]. *)
Definition eig_leftvec_add_mps (lv lt1 lt2 : nd K) : res (nd K) :=
  do lv <- np_tensordot lv (nconj lt1) [0] [0];
  np_tensordot lv lt2 [0; 1] [0; 1].
(** linalg.py 144-151: [_eig_rightvec_add_mps]. *)
Definition eig_rightvec_add_mps (rv lt1 lt2 : nd K) : res (nd K) :=
  do rv <- np_tensordot rv (nconj lt1) [0] [2];
  np_tensordot rv lt2 [0; 2] [2; 1].

(** ** Local operators *)
(** linalg.py 179-237: [_eig_local_op]. *)
Definition eig_local_op (leftvec : nd K) (mpo_ltens : list (nd K)) (rightvec : nd K) : res (nd K) :=
  let nr := List.length mpo_ltens in
  do w0 <- pyget mpo_ltens 0;
  do w <- foldM matdot_py (tl mpo_ltens) w0;
  do w <- local_to_global w nr 1 1;
  let s := shp w in
  do w <- reshape_py w (zshape [hd 0 s; size (firstn nr (tl s)); size (removelast (skipn (1 + nr) s)); List.last s 0]);
  do lv <- named_new leftvec ["left_mps_bond"; "left_mpo_bond"; "left_cc_mps_bond"];
  do w <- named_new w ["left_mpo_bond"; "phys_row"; "phys_col"; "right_mpo_bond"];
  do rv <- named_new rightvec ["right_mps_bond"; "right_mpo_bond"; "right_cc_mps_bond"];
  do op <- ntensordot lv w [("left_mpo_bond", "left_mpo_bond")];
  do op <- ntensordot op rv [("right_mpo_bond", "right_mpo_bond")];
  do op <- nto_array op ["left_cc_mps_bond"; "phys_row"; "right_cc_mps_bond";
                         "left_mps_bond"; "phys_col"; "right_mps_bond"];
  reshape_py op [Z.of_nat (size (firstn 3 (shp op))); -1]%Z.

(** [np.outer(a, b)]: both arguments are flattened. *)
Definition np_outer (a b : nd K) : nd K :=
  let m := size (shp a) in let n := size (shp b) in
  tab [m; n] (fun idx => kmul (nth (nth 0 idx 0) (dat a) k0) (nth (nth 1 idx 0) (dat b) k0)).

(** linalg.py 240-262: [_eig_local_op_mps]; [s[3]] of an array with fewer axes is
    IndexError. *)
Definition eig_local_op_mps (lv : nd K) (ltens : list (nd K)) (rv : nd K) : res (nd K) :=
  let op := np_T lv in
  match shp op with
  | [s0; s1] =>
      let op := reshape op [s0; 1; s1] in
      do op <- foldM (fun op lt =>
          do op <- np_tensordot op (nconj lt) [2] [0];
          match nth_error (shp op) 0, nth_error (shp op) 3 with
          | Some s0, Some s3 => reshape_py op [Z.of_nat s0; -1; Z.of_nat s3]%Z
          | _, _ => Err IndexError
          end) ltens op;
      do op <- np_tensordot op rv [2] [0];
      Ok (np_outer (nconj op) op)
  | _ => Err ValueError
  end.

(** ** sandwich *)
(** mparray.py 1256-1281.  [zip] stops at the shortest chain. *)
Definition sandwich (mpo mps : ltens K) (mps2 : option (ltens K)) : res K :=
  let m2 := match mps2 with Some y => y | None => mps end in
  do arr <- foldM (fun arr p => eig_leftvec_add arr (fst (fst p)) (snd (fst p)) (Some (snd p)))
                  (combine (combine (lts mpo) (lts mps)) (lts m2)) (np_ones 3);
  passert (Nat.eqb (size (shp arr)) 1) (Ok (nth 0 (dat arr) k0)).

(** ** The sweeps *)
(** [l[k]] for a list of cached environments; an entry that is None has no shape. *)
Definition getvec {E : Type} (l : list (option E)) (k : nat) : res E :=
  match nth_error l k with
  | Some (Some e) => Ok e
  | Some None => Err AttributeError
  | None => Err IndexError
  end.

(** The local variables of the loops: the MPS that is varied, the cached
    environments and the last local result ([eigval]). *)
Record sweep_st (E V : Type) : Type := mkSt {
  st_x : ltens K; st_l : list (option E); st_r : list (option E); st_v : option V }.
Arguments mkSt {E V} _ _ _ _.
Arguments st_x {E V} _.
Arguments st_l {E V} _.
Arguments st_r {E V} _.
Arguments st_v {E V} _.

Section Sweep.
Variable qr : nd K -> res (nd K * nd K).
(** Environments, local results, number of sites, number of varied sites. *)
Variables (E V : Type) (n v : nat).
(** Adding site [k] with the current local tensor to an environment; the local
    update of the sites [pos, pos + v). *)
Variable ladd : nat -> E -> nd K -> res E.
Variable radd : nat -> E -> nd K -> res E.
Variable solve : nat -> E -> list (nd K) -> E -> res (V * list (nd K)).

(** Sites [pos, pos + v) are replaced ([lt[pos:pos_end] = ...] is [update] without
    flags, mpstruct.py 145-149). *)
Definition sweep_local (st : sweep_st E V) (pos : nat) : res (sweep_st E V) :=
  do l <- getvec (st_l st) pos;
  do r <- getvec (st_r st) pos;
  let zp := Z.of_nat pos in let ze := Z.of_nat (pos + v) in
  do p <- solve pos l (pyslice (lts (st_x st)) zp ze) r;
  do x <- lt_update_slice (st_x st) (mkSlice (Some zp) (Some ze) None) (snd p) (COne None);
  Ok (mkSt x (st_l st) (st_r st) (Some (fst p))).

(** One step to the right. *)
Definition sweep_ltr (st : sweep_st E V) (pos : nat) : res (sweep_st E V) :=
  do st1 <-
    (if Nat.ltb 0 pos then
       do x <- canonicalize qr (st_x st) (CAInt (Z.of_nat pos)) CANone;
       do l <- getvec (st_l st) (pos - 1);
       do t <- pyget (lts x) (Z.of_nat pos - 1);
       do l' <- ladd (pos - 1) l t;
       Ok (mkSt x (set_nth pos (Some l') (st_l st)) (set_nth (pos - 1) None (st_r st)) (st_v st))
     else Ok st);
  sweep_local st1 pos.

(** One step to the left. *)
Definition sweep_rtl (st : sweep_st E V) (pos : nat) : res (sweep_st E V) :=
  let ze := Z.of_nat (pos + v) in
  do x <- canonicalize qr (st_x st) CANone (CAInt ze);
  do r <- getvec (st_r st) (pos + 1);
  do t <- pyget (lts x) ze;
  do r' <- radd (pos + v) r t;
  sweep_local (mkSt x (set_nth (pos + 1) None (st_l st)) (set_nth pos (Some r') (st_r st)) (st_v st)) pos.

(** One sweep: to the right (the first position only in the first sweep) and back. *)
Definition sweep_one (st : sweep_st E V) (num : nat) : res (sweep_st E V) :=
  do st1 <- foldM sweep_ltr (if Nat.ltb 0 num then seq 1 (n - v) else seq 0 (n - v + 1)) st;
  foldM sweep_rtl (rev (seq 0 (n - v))) st1.

(** linalg.py 455-509, 597-666 and mparray.py 1055-1104: the start vector is
    canonicalized, the environments to the right are prepared, then the sweeps.
    The three functions differ in the environments and the local update only. *)
Definition sweep_prepare (ones : E) (x : ltens K) : res (sweep_st E V) :=
  do x <- canonicalize qr x CANone (CAInt 1);
  let ls := Some ones :: repeat None (n - v) in
  let rs := repeat None (n - v) ++ [Some ones] in
  do rs <- foldM (fun rs pos =>
      do r <- getvec rs (pos + 1);
      do t <- pyget (lts x) (Z.of_nat (pos + v));
      do r' <- radd (pos + v) r t;
      Ok (set_nth pos (Some r') rs)) (rev (seq 0 (n - v))) rs;
  Ok (mkSt x ls rs None).
Definition sweeps (num_sweeps : nat) (st : sweep_st E V) : res (sweep_st E V) :=
  foldM sweep_one (seq 0 num_sweeps) st.
End Sweep.

Section Eig.
Variable qr : nd K -> res (nd K * nd K).
Variable svd : nd K -> res (nd K * list K * nd K).
(** [eigs(op, v0=...)]: the arrays of eigenvalues and eigenvectors. *)
Variable eigs : nd K -> list K -> res (nd K * nd K).

(** The largest left bond of a window; [max()] of nothing is ValueError. *)
Definition max_left (ts : list (nd K)) : res nat :=
  match map ldim ts with [] => Err ValueError | r :: rs => Ok (fold_right Nat.max r rs) end.

(** linalg.py 296-333: [_eig_minimize_locally2]. *)
Definition eig_minimize2 (op : nd K) (ltens : list (nd K)) : res (K * list (nd K)) :=
  do rk <- max_left ltens;
  do t0 <- pyget ltens 0;
  do t <- foldM matdot_py (tl ltens) t0;
  do ev <- eigs op (dat t);
  let '(val, vec) := ev in
  do vec' <-
    match ndim vec with
    | 1 => praise_unless (Nat.eqb (size (shp val)) 1) ValueError (Ok vec)
    | 2 => praise_unless (list_eqb (shp val) [1] && Nat.eqb (nth 1 (shp vec) 0) 1) ValueError
             (Ok (mkNd [nth 0 (shp vec) 0] (dat vec)))
    | _ => Err ValueError
    end;
  do lt <- reshape_py vec' (zshape (shp t));
  do ts <-
    (if Nat.eqb (List.length ltens) 1 then Ok [lt]
     else
       do z <- from_array qr lt (NDInt 1) true;
       do c <- compress_svd qr svd (truncated_svd svd) z (Some rk) None DNone true;
       Ok (lts (fst c)));
  Ok (nth 0 (dat val) k0, ts).

(** linalg.py 265-294: [_eig_minimize_locally]. *)
Definition eig_minimize (leftvec : nd K) (mpo_ltens : list (nd K)) (rightvec : nd K) (ltens : list (nd K))
  : res (K * list (nd K)) :=
  do op <- eig_local_op leftvec mpo_ltens rightvec;
  eig_minimize2 op ltens.

(** Two neighbouring bonds of dimension 1 (linalg.py 445-449). *)
Fixpoint consecutive_ones (l : list nat) : bool :=
  match l with
  | a :: ((b :: _) as l') => (Nat.eqb a 1 && Nat.eqb b 1) || consecutive_ones l'
  | _ => false
  end.

(** The start vector, linalg.py 422-449.  [random_start rank] stands for the
    normalised random MPS of that rank (lines 430-436: [random_mpa],
    [canonicalize], [norm]). *)
Definition start_vector (random_start : nat -> res (ltens K)) (startvec : option (ltens K)) (rank : option nat)
  : res (ltens K) :=
  do x <- match startvec with
          | None => match rank with
                    | None => Err ValueError
                    | Some 1 => Err ValueError
                    | Some r => random_start r
                    end
          | Some x => mpa_copy x
          end;
  passert (negb (consecutive_ones (1 :: ranks x ++ [1]))) (Ok x).

(** What the loops leave: without any sweep [eigval] is unbound. *)
Definition eig_result {E : Type} (st : sweep_st E K) : res (K * ltens K) :=
  match st_v st with Some val => Ok (val, st_x st) | None => Err UnboundLocalError end.

(** linalg.py 353-511: [eig]. *)
Definition eig (random_start : nat -> res (ltens K)) (mpo : ltens K) (num_sweeps var_sites : nat)
    (startvec : option (ltens K)) (startvec_rank : option nat) : res (K * ltens K) :=
  let n := llen mpo in
  passert (Nat.ltb var_sites n) (
  do x <- start_vector random_start startvec startvec_rank;
  let ladd k e t := do w <- pyget (lts mpo) (Z.of_nat k); eig_leftvec_add e w t None in
  let radd k e t := do w <- pyget (lts mpo) (Z.of_nat k); eig_rightvec_add e w t in
  let solve pos l ts r :=
    eig_minimize l (pyslice (lts mpo) (Z.of_nat pos) (Z.of_nat (pos + var_sites))) r ts in
  do st <- sweep_prepare qr (nd K) K n var_sites radd (np_ones 3) x;
  do st <- sweeps qr (nd K) K n var_sites ladd radd solve num_sweeps st;
  eig_result st).

(** linalg.py 154-176: [_eig_sum_leftvec_add], [_eig_sum_rightvec_add]; every
    entry of the output list is replaced. *)
Definition eig_sum_add (addo adds : nd K -> nd K -> nd K -> res (nd K))
    (mpas : list (ltens K)) (k : nat) (es : list (nd K)) (t : nd K) : res (list (nd K)) :=
  mapM (fun p => let '(m, e) := p in
      do nd <- pyget (ndims m) 0;
      if (nd =? 2)%Z then (do w <- pyget (lts m) (Z.of_nat k); addo e w t)
      else if (nd =? 1)%Z then (do w <- pyget (lts m) (Z.of_nat k); adds e w t)
      else Err ValueError) (combine mpas es).
Definition eig_sum_ladd mpas :=
  eig_sum_add (fun e w t => eig_leftvec_add e w t None) eig_leftvec_add_mps mpas.
Definition eig_sum_radd mpas := eig_sum_add eig_rightvec_add eig_rightvec_add_mps mpas.

(** linalg.py 336-350: [_eig_sum_minimize_locally]; [op = 0; op += ...]. *)
Definition eig_sum_op (mpas : list (ltens K)) (ls : list (nd K)) (pos pos_end : Z) (rs : list (nd K)) : res (nd K) :=
  do ops <- mapM (fun p => let '((m, l), r) := p in
      do nd <- pyget (ndims m) 0;
      if (nd =? 2)%Z then eig_local_op l (pyslice (lts m) pos pos_end) r
      else if (nd =? 1)%Z then eig_local_op_mps l (pyslice (lts m) pos pos_end) r
      else Err ValueError) (combine (combine mpas ls) rs);
  match ops with
  | [] => Err IndexError
  | op :: ops' => foldM nadd_py ops' op
  end.

(** linalg.py 542-666: [eig_sum]; without any object [mpas[0]] is IndexError. *)
Definition eig_sum (random_start : nat -> res (ltens K)) (mpas : list (ltens K)) (num_sweeps var_sites : nat)
    (startvec : option (ltens K)) (startvec_rank : option nat) : res (K * ltens K) :=
  do m0 <- pyget mpas 0;
  let n := llen m0 in
  passert (forallb (fun m => Nat.eqb (llen m) n) mpas) (
  do nds <- mapM (fun m => pyget (ndims m) 0) mpas;
  passert (Nat.ltb var_sites n) (
  do x <- start_vector random_start startvec startvec_rank;
  let solve pos ls ts rs :=
    (do op <- eig_sum_op mpas ls (Z.of_nat pos) (Z.of_nat (pos + var_sites)) rs; eig_minimize2 op ts) in
  let ones := map (fun pl => np_ones (Z.to_nat (1 + pl))) nds in
  do st <- sweep_prepare qr (list (nd K)) K n var_sites (eig_sum_radd mpas) ones x;
  do st <- sweeps qr (list (nd K)) K n var_sites (eig_sum_ladd mpas) (eig_sum_radd mpas) solve num_sweeps st;
  eig_result st)).

(** ** Variational compression *)
(** mparray.py 1927-1962: [_adapt_to_add_l]. *)
Definition adapt_add_l (leftvec compr tgt : nd K) : res (nd K) :=
  do lv <- named_new leftvec ["compr_bond"; "tgt_bond"];
  do c <- named_new compr ["compr_left_bond"; "compr_phys"; "compr_right_bond"];
  do t <- named_new tgt ["tgt_left_bond"; "tgt_phys"; "tgt_right_bond"];
  do lv <- ntensordot lv c [("compr_bond", "compr_left_bond")];
  do tc <- named_conj t;
  do lv <- ntensordot lv tc [("compr_phys", "tgt_phys"); ("tgt_bond", "tgt_left_bond")];
  do lv <- nrename lv [("compr_right_bond", "compr_bond"); ("tgt_right_bond", "tgt_bond")];
  nto_array lv ["compr_bond"; "tgt_bond"].

(** mparray.py 1965-2001: [_adapt_to_add_r]. *)
Definition adapt_add_r (rightvec compr tgt : nd K) : res (nd K) :=
  do rv <- named_new rightvec ["compr_bond"; "tgt_bond"];
  do c <- named_new compr ["compr_left_bond"; "compr_phys"; "compr_right_bond"];
  do t <- named_new tgt ["tgt_left_bond"; "tgt_phys"; "tgt_right_bond"];
  do rv <- ntensordot rv c [("compr_bond", "compr_right_bond")];
  do tc <- named_conj t;
  do rv <- ntensordot rv tc [("compr_phys", "tgt_phys"); ("tgt_bond", "tgt_right_bond")];
  do rv <- nrename rv [("compr_left_bond", "compr_bond"); ("tgt_left_bond", "tgt_bond")];
  nto_array rv ["compr_bond"; "tgt_bond"].

(** mparray.py 2004-2059: [_adapt_to_new_lten]; [_ltens_to_array] of no tensor is
    StopIteration. *)
Definition adapt_new_lten (leftvec : nd K) (tgt : list (nd K)) (rightvec : nd K) (max_rank : nat)
  : res (list (nd K)) :=
  do t0 <- match tgt with [] => Err StopIteration | t :: ts => foldM matdot_py ts t end;
  let ts := shp t0 in
  do t <- reshape_py t0 [Z.of_nat (hd 0 ts); (-1)%Z; Z.of_nat (List.last ts 0)];
  do lv <- named_new leftvec ["compr_left_bond"; "tgt_left_bond"];
  do t <- named_new t ["tgt_left_bond"; "tgt_phys"; "tgt_right_bond"];
  do rv <- named_new rightvec ["compr_right_bond"; "tgt_right_bond"];
  do tc <- named_conj t;
  do c <- ntensordot lv tc [("tgt_left_bond", "tgt_left_bond")];
  do c <- ntensordot c rv [("tgt_right_bond", "tgt_right_bond")];
  do c <- nto_array c ["compr_left_bond"; "tgt_phys"; "compr_right_bond"];
  let c := nconj c in
  do c <- reshape_py c (zshape (hd 0 (shp c) :: removelast (tl ts) ++ [List.last (shp c) 0]));
  if Nat.eqb (List.length tgt) 1 then Ok [c]
  else
    do z <- from_array qr c (NDInt 1) true;
    do p <- compress_svd qr svd (truncated_svd svd) z (Some max_rank) None DNone true;
    Ok (lts (fst p)).

(** mparray.py 1015-1112: [_adapt_to]: the adapted MPS and the square of its norm.
    [max(self.ranks)] of a single site is ValueError.  For [var_sites] larger than
    the number of sites no position is visited. *)
Definition adapt_to (x target : ltens K) (num_sweeps var_sites : nat) : res (K * ltens K) :=
  passert (forallb (fun d => (d =? 1)%Z) (ndims x)) (
  passert (forallb (fun d => (d =? 1)%Z) (ndims target)) (
  let n := llen target in
  let ladd k e t := do w <- pyget (lts target) (Z.of_nat k); adapt_add_l e t w in
  let radd k e t := do w <- pyget (lts target) (Z.of_nat k); adapt_add_r e t w in
  do st <- sweep_prepare qr (nd K) unit n var_sites radd (np_ones 2) x;
  do mr <- max_rank (st_x st);
  let solve pos l (ts : list (nd K)) r :=
    (do us <- adapt_new_lten l (pyslice (lts target) (Z.of_nat pos) (Z.of_nat (pos + var_sites))) r mr;
     Ok (tt, us)) in
  do st <- (if Nat.leb var_sites n
            then sweeps qr (nd K) unit n var_sites ladd radd solve num_sweeps st
            else Ok st);
  norm_sq qr (st_x st))).

(** mparray.py 861-899: [_compression_var].  [random_compr rank] stands for
    [random_mpa] with the shape of [x]. *)
Definition compression_var (random_compr : nat -> res (ltens K)) (x : ltens K) (num_sweeps : nat)
    (startmpa : option (ltens K)) (rank : option nat) (var_sites : nat) : res (ltens K * K) :=
  if Nat.eqb (llen x) 1 then (do c <- mpa_copy x; do p <- norm_sq qr c; Ok (snd p, fst p))
  else
    do rk <- match startmpa with
             | Some s => max_rank s
             | None => match rank with None => Err ValueError | Some r => Ok r end
             end;
    do mr <- max_rank x;
    if Nat.ltb mr rk then (do c <- mpa_copy x; do p <- norm_sq qr c; Ok (snd p, fst p))
    else
      do c <- match startmpa with
              | None => random_compr rk
              | Some s =>
                  do c <- mpa_copy s;
                  passert (forallb (fun p => list_eqb (fst p) (snd p)) (combine (mshape x) (mshape c))) (Ok c)
              end;
      do c <- mravel c;
      do t <- mravel x;
      do p <- adapt_to c t num_sweeps var_sites;
      do c <- mreshape (snd p) (RList (map zshape (mshape x)));
      Ok (c, fst p).
End Eig.
End Linalg.
Arguments mkSt {K E V} _ _ _ _.
Arguments st_x {K E V} _.
Arguments st_l {K E V} _.
Arguments st_r {K E V} _.
Arguments st_v {K E V} _.
