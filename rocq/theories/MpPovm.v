(** Model of povm/mppovm.py: MPPovm (constructor, elements, embedding, probabilities) and
    the structural part of MPPovmList.

    An MPPovm is an MPArray; [povm_checks] are the assertions of its constructor. *)
From Verif Require Export MpsMpo.
Open Scope nat_scope.

Section MpPovm.
Context {K : StarRing}.

(** mppovm.py 197-216.  [shape[1]], [shape[2]] of the local tensors. *)
Definition outdims (x : ltens K) : list nat := map (fun t => nth 1 (shp t) 0) (lts x).
Definition nsoutdims (x : ltens K) : list nat := filter (fun d => Nat.ltb 1 d) (outdims x).
Definition nsoutpos (x : ltens K) : list nat :=
  map fst (filter (fun p => Nat.ltb 1 (snd p)) (combine (seq 0 (llen x)) (outdims x))).
Definition hdims (x : ltens K) : list nat := map (fun t => nth 2 (shp t) 0) (lts x).

(** mppovm.py 184-195 *)
Definition povm_checks (x : ltens K) : res (ltens K) :=
  passert (forallb (fun d => (d =? 3)%Z) (ndims x)) (
  passert (forallb (fun p => Nat.eqb (nth 1 p 0) (nth 2 p 0)) (mshape x)) (
  passert (forallb (fun d => Nat.leb d 255) (outdims x)) (Ok x))).
Definition mppovm_new (ts : list (nd K)) : res (ltens K) := do x <- mpa_new ts; povm_checks x.

(** mppovm.py 231-250: [transpose] returns an MPPovm, [reshape] an MPArray. *)
Definition probability_map (x : ltens K) : res (ltens K) :=
  do y <- mtranspose x (Some [0; 2; 1]%Z);
  do z <- povm_checks y;
  mreshape z (RList (map (fun p => [Z.of_nat (nth 0 p 0); (-1)%Z]) (mshape x))).

(** mppovm.py 252-260; [lelems] as an array *)
Definition from_local_povm (lelems : nd K) (width : nat) : res (ltens K) :=
  do x <- from_kron (repeat lelems width); povm_checks x.
(** mppovm.py 262-275 *)
Definition povm_eye (local_dims : list nat) : res (ltens K) :=
  do x <- from_kron (map (fun d => reshape (eye d) [1; d; d]) local_dims); povm_checks x.

(** mppovm.py 277-306.  [local_dim] is a number or a sequence. *)
Inductive ldarg : Type := LdInt (d : nat) | LdSeq (l : list nat).
Definition embed (x : ltens K) (nr_sites startsite : Z) (local_dim : ldarg) : res (ltens K) :=
  let ld := match local_dim with LdSeq l => l | LdInt d => repeat d (Z.to_nat nr_sites) end in
  passert (Z.of_nat (List.length ld) =? nr_sites)%Z (
  let n_right := (nr_sites - Z.of_nat (llen x) - startsite)%Z in
  passert (0 <=? n_right)%Z (
  do l <- (if (0 <? startsite)%Z then do e <- povm_eye (pyslice ld 0 startsite); Ok [e] else Ok []);
  do r <- (if (0 <? n_right)%Z then do e <- povm_eye (pyslice ld (- n_right) (Z.of_nat (List.length ld))); Ok [e] else Ok []);
  do z <- mchain (l ++ [x] ++ r);
  povm_checks z)).

(** mppovm.py 1205-1216: an MPPovmList; members that are MPArrays are checked. *)
Definition mppl_new (xs : list (ltens K)) : res (list (ltens K)) :=
  passert (forallb (fun x => Nat.eqb (llen x) (match xs with y :: _ => llen y | [] => 0 end)) xs) (mapM povm_checks xs).
(** mppovm.py 308-327 *)
Definition block (x : ltens K) (nr_sites : Z) : res (list (ltens K)) :=
  do d <- pyget (hdims x) 0;
  passert (forallb (fun e => Nat.eqb e d) (hdims x)) (
  do l <- mapM (fun s => embed x nr_sites s (LdInt d)) (pyrange 0 (nr_sites - Z.of_nat (llen x) + 1) 1);
  mppl_new l).
(** mppovm.py 329-354 *)
Definition prepeat (x : ltens K) (nr_sites : nat) : res (ltens K) :=
  if Nat.eqb (llen x) 0 then Err ZeroDivisionError else
  let n_repeat := nr_sites / llen x in
  let n_last := nr_sites mod llen x in
  do last <- (if Nat.ltb 0 n_last then
                do r <- pyget (ranks x) (Z.of_nat n_last - 1);
                passert (Nat.eqb r 1) (do y <- mppovm_new (firstn n_last (lts x)); Ok [y])
              else Ok []);
  do z <- mchain (repeat x n_repeat ++ last);
  povm_checks z.
(** mppovm.py 1218-1246: the blocks of all members; [zip] groups them by position. *)
Fixpoint zipn {A : Type} (n : nat) (ls : list (list A)) : list (list A) :=
  match n with
  | O => []
  | S m => match mapM (fun l => match l with a :: _ => Ok a | [] => Err StopIteration end) ls with
           | Ok hs => match ls with [] => [] | _ => hs :: zipn m (map (@tl A) ls) end
           | Err _ => []
           end
  end.
Definition zip_all {A : Type} (ls : list (list A)) : list (list A) := zipn (fold_right Nat.max 0 (map (@List.length A) ls)) ls.
Definition mppl_block (xs : list (ltens K)) (nr_sites : Z) : res (list (ltens K)) :=
  do bs <- mapM (fun x => block x nr_sites) xs;
  mppl_new (concat (zip_all bs)).
(** mppovm.py 1248-1275 *)
Definition mppl_repeat (xs : list (ltens K)) (nr_sites : nat) : res (list (ltens K)) :=
  do l <- mapM (fun x => prepeat x nr_sites) xs; mppl_new l.

(** ** Probabilities *)
Inductive pmode : Type := EAuto | EMps | EMpdo | EPmps | EOther.
Section QR.
Variable qr : nd K -> res (nd K * nd K).
(** mppovm.py 356-392: the values yielded and the state afterwards (the reductions of a
    PMPS canonicalize it). *)
Definition dot_pmap (pm rho : ltens K) : res (ltens K) := do r <- mravel rho; mdot pm r (AInt (-1) 0).
Definition expectations (x state : ltens K) (mode : pmode) : res (list (ltens K) * ltens K) :=
  passert (Nat.leb (llen x) (llen state)) (
  let mode' := match mode with
               | EAuto => if forallb (fun d => (d =? 1)%Z) (ndims state) then EMps
                          else if forallb (fun d => (d =? 2)%Z) (ndims state) then EMpdo else EOther
               | m => m
               end in
  do pm <- probability_map x;
  let w := Some (Z.of_nat (llen x)) in
  match mode' with
  | EMps => do ps <- reductions_mps_as_pmps qr state w None None;
            do out <- mapM (fun p => do rho <- pmps_to_mpo p; dot_pmap pm rho) ps;
            Ok (out, state)
  | EMpdo => do ps <- reductions_mpo state w None None;
             do out <- mapM (dot_pmap pm) ps;
             Ok (out, state)
  | EPmps => do r <- reductions_pmps qr state w None None;
             do out <- mapM (fun p => do rho <- pmps_to_mpo p; dot_pmap pm rho) (fst r);
             Ok (out, snd r)
  | _ => Err ValueError
  end).
(** mppovm.py 394-410 *)
Definition pmf (x state : ltens K) (mode : pmode) : res (ltens K * ltens K) :=
  passert (Nat.eqb (llen x) (llen state)) (
  do r <- expectations x state mode;
  match fst r with z :: _ => Ok (z, snd r) | [] => Err StopIteration end).

(** mppovm.py 412-462.  Contractions of legs with different dimensions and tensors with a
    wrong number of axes are ValueError. *)
Definition ltr_step (p : nd K) (q : nd K * nd K) : res (nd K) :=
  let (pv, ps) := q in
  praise_unless (Nat.eqb (ndim ps) 4 && Nat.eqb (ndim pv) 5) ValueError (
  praise_unless (Nat.eqb (nth 2 (shp p) 0) (ldim ps)) ValueError (
  let p1 := tensordot p ps [2] [0] in
  let cs := nconj ps in
  praise_unless (list_eqb (gather [2; 4] (shp p1)) (gather [0; 2] (shp cs))) ValueError (
  let p2 := tensordot p1 cs [2; 4] [0; 2] in
  praise_unless (list_eqb (gather [1; 2; 4] (shp p2)) (gather [0; 3; 2] (shp pv))) ValueError (
  let p3 := transpose (tensordot p2 pv [1; 2; 4] [0; 3; 2]) [0; 3; 4; 1; 2] in
  let s := shp p3 in
  Ok (reshape p3 [nth 0 s 0 * nth 1 s 0; nth 2 s 0; nth 3 s 0; nth 4 s 0]))))).
Definition ltr_partial (x state : ltens K) : res (nd K) :=
  foldM ltr_step (combine (lts x) (lts state)) (mkNd [1; 1; 1; 1] [k1]).
Definition pmf_ltr (x state : ltens K) : res (nd K) :=
  do p <- ltr_partial x state;
  let s := nsoutdims x in
  passert (list_eqb (shp p) [size s; 1; 1; 1]) (Ok (reshape p s)).

(** mppovm.py 464-512.  [symm_at n_left] is the computation for a given cut. *)
Definition symm_at (n_left : nat) (x state : ltens K) : res (nd K) :=
  do xl <- mppovm_new (firstn n_left (lts x));
  do pl <- ltr_partial xl state;
  do pl2 <- reshape_py pl [Z.of_nat (nth 0 (shp pl) 0); (-1)%Z];
  do r1 <- mppovm_new (skipn n_left (lts x));
  do r2 <- mreverse r1;
  do xr <- povm_checks r2;
  do s1 <- mpa_new (skipn n_left (lts state));
  do sr <- mreverse s1;
  do pr <- ltr_partial xr sr;
  let s_right := filter (fun d => Nat.ltb 1 d) (rev (skipn n_left (outdims x))) in
  passert (Nat.eqb (nth 0 (shp pr) 0) (size s_right)) (
  do pr2 <- reshape_py pr (map Z.of_nat s_right ++ [(-1)%Z]);
  let pr3 := transpose pr2 (rev (seq 0 (ndim pr2))) in
  praise_unless (Nat.eqb (nth 1 (shp pl2) 0) (nth 0 (shp pr3) 0)) ValueError (
  reshape_py (tensordot pl2 pr3 [1] [0]) (map Z.of_nat (nsoutdims x)))).
(** The cut: the first minimum of the maximal sizes.  [cumprod] is [np.cumprod]; [listmax]
    of an empty list is ValueError. *)
Fixpoint cumprod (acc : nat) (l : list nat) : list nat :=
  match l with [] => [] | d :: l' => (acc * d) :: cumprod (acc * d) l' end.
Fixpoint argmin (l : list nat) : nat :=
  match l with
  | [] => 0
  | d :: l' => if forallb (fun e => Nat.leb d e) l' then 0 else S (argmin l')
  end.
Definition symm_cut (x state : ltens K) : res nat :=
  let cp := cumprod 1 (outdims x) in
  let tot := last cp 1 in
  let rk := map (fun p => fst p * fst p * snd p) (combine (ranks state) (ranks x)) in
  let p0 := map (fun p => fst p * snd p) (combine (removelast cp) rk) in
  let p1 := map (fun p => (tot / fst p) * snd p) (combine (removelast cp) rk) in
  let m := map (fun i => fold_right Nat.max 0 (firstn i p0 ++ skipn i p1)) (seq 0 (List.length p0)) in
  match m with [] => Err ValueError | _ => Ok (S (argmin m)) end.
Definition pmf_symm (x state : ltens K) : res (nd K) := do n <- symm_cut x state; symm_at n x state.

(** mppovm.py 514-554 without the final [project_pmf].  The second component is the state
    object of the caller afterwards. *)
Inductive pimpl : Type := IAuto | IDefault | ISymm | ILtr | IOther.
Definition pmf_raw (x state : ltens K) (mode : pmode) (impl : pimpl) : res (nd K * ltens K) :=
  passert (Nat.eqb (llen x) (llen state)) (
  do sm <- match impl, mode with
           | IAuto, EMps => do p <- mps_to_pmps state; Ok (p, EPmps)
           | _, _ => Ok (state, mode)
           end;
  let (st, md) := sm : ltens K * pmode in
  let impl1 := match impl with IAuto => match md with EPmps => ISymm | _ => IDefault end | i => i end in
  let impl2 := match impl1 with ISymm => if Nat.eqb (llen x) 1 then ILtr else ISymm | i => i end in
  match impl2 with
  | ISymm => do p <- pmf_symm x st; Ok (p, state)
  | ILtr => do p <- pmf_ltr x st; Ok (p, state)
  | IDefault => do r <- expectations x st md;
                match fst r with
                | z :: _ => do y <- prune z true; Ok (to_array y, snd r)
                | [] => Err StopIteration
                end
  | _ => Err ValueError
  end).
End QR.
End MpPovm.
