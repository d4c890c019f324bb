(** The methods that change an object in place, with the state in which they leave
    it when they raise.  The other models of these methods give the new state of the
    object only for a call that returns; here a call is a function from the state of
    the object to its new state together with the outcome, so that everything written
    before an exception stays. *)
From Verif Require Import MpCanon.

Section ObjState.
Context {K : StarRing}.

(** A call on an object: new state of the object, and the value or the exception. *)
Definition call (A : Type) : Type := ltens K -> ltens K * res A.
Definition creturn {A : Type} (a : A) : call A := fun x => (x, Ok a).
(** Evaluate an expression that does not write to the object. *)
Definition eval {A : Type} (f : ltens K -> res A) : call A := fun x => (x, f x).
Definition cbind {A B : Type} (m : call A) (f : A -> call B) : call B :=
  fun x => let '(y, r) := m x in match r with Ok a => f a y | Err e => (y, Err e) end.
Definition craise {A : Type} (e : pyerr) : call A := fun x => (x, Err e).
Definition cassert (b : bool) : call unit := fun x => (x, if b then Ok tt else Err AssertionError).
End ObjState.
Notation "'run' a <- m ; k" := (cbind m (fun a => k)) (at level 200, a pattern, m at level 100, k at level 200).

Section Calls.
Context {K : StarRing}.
Notation call := (@call K).

(** [for s in l: m(s)] *)
Fixpoint cfor {A : Type} (m : A -> call unit) (l : list A) : call unit :=
  match l with
  | [] => creturn tt
  | s :: l' => run _ <- m s; cfor m l'
  end.
(** The same, collecting what a generator yields. *)
Fixpoint cgen {A B : Type} (m : A -> call B) (l : list A) : call (list B) :=
  match l with
  | [] => creturn []
  | s :: l' => run b <- m s; run bs <- cgen m l'; creturn (b :: bs)
  end.

(** mpstruct.py 75-101: [_update]; list assignment raises before anything is
    written, the rest does not raise. *)
Definition update1_call (index : Z) (t : nd K) (flag : option string) : call unit :=
  fun x => match lt_update1 x index t flag with Ok y => (y, Ok tt) | Err e => (x, Err e) end.

(** mpstruct.py 103-143, slice branch: the checks read the object, then the sites are
    written one after the other. *)
Definition update_slice_call (s : pyslc) (ts : list (nd K)) (c : canon_arg) : call unit :=
  run ind <- eval (fun x => slice_indices s (llen x));
  let '(start, stop, step) := ind in
  run cur <- eval (fun x => pyget (lts x) start);
  run c0 <- eval (fun _ => shape0 cur);
  run t0 <- eval (fun _ => pyget ts 0);
  run n0 <- eval (fun _ => shape0 t0);
  run _ <- cassert (Nat.eqb c0 n0);
  run _ <- eval (fun _ => check_bonds ts);
  run curl <- eval (fun x => pyget (lts x) (stop - 1));
  run c1 <- eval (fun _ => shape_last curl);
  run tl <- eval (fun _ => pyget ts (-1));
  run n1 <- eval (fun _ => shape_last tl);
  run _ <- cassert (Nat.eqb c1 n1);
  let flags := match c with
               | COne None => repeat None (List.length ts)
               | COne (Some str) => str_chars str
               | CSeq l => l
               end in
  cfor (fun p => update1_call (snd (fst p)) (fst (fst p)) (snd p))
    (combine (combine ts (pyrange start stop step)) flags).
(** mpstruct.py 103-143, integer branch. *)
Definition update_int_call (index : Z) (t : nd K) (flag : option string) : call unit :=
  run cur <- eval (fun x => pyget (lts x) index);
  run _ <- cassert (Nat.leb 2 (ndim t));
  run c0 <- eval (fun _ => shape0 cur); run n0 <- eval (fun _ => shape0 t);
  run _ <- cassert (Nat.eqb c0 n0);
  run c1 <- eval (fun _ => shape_last cur); run n1 <- eval (fun _ => shape_last t);
  run _ <- cassert (Nat.eqb c1 n1);
  update1_call index t flag.

Section QR.
Variable qr : nd K -> res (nd K * nd K).

(** mparray.py 681-691, loop body of [_rcanonicalize] *)
Definition rcanon_call (site : Z) : call unit :=
  run t <- eval (fun x => pyget (lts x) site);
  run d <- eval (fun _ => shape_last t);
  run m <- eval (fun _ => reshape_py t [-1; Z.of_nat d]%Z);
  run qr' <- eval (fun _ => qr m);
  let '(q, r) := qr' in
  run q' <- eval (fun _ => reshape_py q (zshape (removelast (shp t)) ++ [-1]%Z));
  run u <- eval (fun x => pyget (lts x) (site + 1));
  run u' <- eval (fun _ => matdot_py r u);
  update_slice_call (mkSlice (Some site) (Some (site + 2)%Z) None) [q'; u'] (CSeq [Some "left"; None]).
(** mparray.py 673-691 *)
Definition rcanonicalize_call (to_site : Z) : call unit :=
  run start <- eval (fun x => Ok (lcan x));
  run n <- eval (fun x => Ok (llen x));
  run _ <- cassert ((0 <=? to_site)%Z && (to_site <? Z.of_nat n)%Z);
  cfor rcanon_call (pyrange start to_site 1).

(** mparray.py 702-711, loop body of [_lcanonicalize] *)
Definition lcanon_call (site : Z) : call unit :=
  run t <- eval (fun x => pyget (lts x) site);
  run d <- eval (fun _ => shape0 t);
  run m <- eval (fun _ => reshape_py t [Z.of_nat d; -1]%Z);
  run qr' <- eval (fun _ => qr (mat_T m));
  let '(q, r) := qr' in
  run p <- eval (fun x => pyget (lts x) (site - 1));
  run p' <- eval (fun _ => matdot_py p (mat_T r));
  run q' <- eval (fun _ => reshape_py (mat_T q) ((-1)%Z :: zshape (tl (shp t))));
  update_slice_call (mkSlice (Some (site - 1)%Z) (Some (site + 1)%Z) None) [p'; q'] (CSeq [None; Some "right"]).
(** mparray.py 693-711 *)
Definition lcanonicalize_call (to_site : Z) : call unit :=
  run start <- eval (fun x => Ok (rcan x));
  run n <- eval (fun x => Ok (llen x));
  run _ <- cassert ((0 <? to_site)%Z && (to_site <=? Z.of_nat n)%Z);
  cfor lcanon_call (pyrange (start - 1) (to_site - 1) (-1)).

(** mparray.py 592-671 *)
Definition canonicalize_call (left right : carg) : call unit :=
  run n <- eval (fun x => Ok (Z.of_nat (llen x)));
  run cf <- eval (fun x => Ok (canonical_form x));
  let '(cl, cr) := cf in
  match left, right with
  | CANone, CANone =>
      if (cl <? n - cr)%Z then lcanonicalize_call 1 else rcanonicalize_call (n - 1)
  | _, _ =>
      let tl0 := match left with CANone => 0%Z | CAFull => (n - 1)%Z | CAInt z => z end in
      let tr0 := match right with CANone => n | CAFull => 1%Z | CAInt z => z end in
      let tl := if (tl0 <? 0)%Z then (tl0 + n)%Z else tl0 in
      let tr := if (tr0 <? 0)%Z then (tr0 + n)%Z else tr0 in
      if negb ((0 <=? tl)%Z && (tl <=? n)%Z) then craise IndexError
      else if negb ((0 <=? tr)%Z && (tr <=? n)%Z) then craise IndexError
      else if negb (tl <? tr)%Z then craise ValueError
      else
        run _ <- (if (cl <? tl)%Z then rcanonicalize_call tl else creturn tt);
        if (tr <? cr)%Z then lcanonicalize_call tr else creturn tt
  end.

(** mparray.py 1416-1435: the square of [norm(mpa)]. *)
Definition norm_sq_call : call K :=
  run _ <- canonicalize_call CANone CANone;
  run cf <- eval (fun x => Ok (canonical_form x));
  let '(cl, cr) := cf in
  run n <- eval (fun x => Ok (Z.of_nat (llen x)));
  if (cr =? 1)%Z then eval (fun x => do t <- pyget (lts x) 0; Ok (abs2 t))
  else if (cl =? n - 1)%Z then eval (fun x => do t <- pyget (lts x) (-1); Ok (abs2 t))
  else craise ValueError.

Section SVD.
Variable svd : nd K -> res (nd K * list K * nd K).
Variable svdfunc : nd K -> nat -> res (nd K * list K * nd K).

(** mparray.py 943-959: one step of [_compress_svd_r]; what is yielded. *)
Definition csvd_r_call (rank : nat) (relerr : option (list K -> nat)) (site : Z) : call (list K * nat) :=
  run f <- eval (fun x => csvd_r_factor svd svdfunc rank relerr x site);
  let '(t, u, s, v, k) := f in
  run u' <- eval (fun _ => reshape_py (take_cols k u) (zshape (removelast (shp t) ++ [k])));
  run w <- eval (fun x => pyget (lts x) (site + 1));
  run sv <- eval (fun _ => scale_rows (firstn k s) (take_rows k v));
  run w' <- eval (fun _ => matdot_py sv w);
  run _ <- update_slice_call (mkSlice (Some site) (Some (site + 2)%Z) None) [u'; w'] (CSeq [Some "left"; None]);
  creturn (s, k).
(** mparray.py 912-928: one step of [_compress_svd_l]. *)
Definition csvd_l_call (rank : nat) (relerr : option (list K -> nat)) (site : Z) : call (list K * nat) :=
  run t <- eval (fun x => pyget (lts x) site);
  run d <- eval (fun _ => shape0 t);
  run m <- eval (fun _ => reshape_py t [Z.of_nat d; -1]%Z);
  run f <- eval (fun _ => svd_site svd svdfunc rank relerr m);
  let '(u, s, v, k) := f in
  run w <- eval (fun x => pyget (lts x) (site - 1));
  run us <- eval (fun _ => scale_cols (take_cols k u) (firstn k s));
  run w' <- eval (fun _ => matdot_py w us);
  run v' <- eval (fun _ => reshape_py (take_rows k v) (zshape (k :: tl (shp t))));
  run _ <- update_slice_call (mkSlice (Some (site - 1)%Z) (Some (site + 1)%Z) None) [w'; v'] (CSeq [None; Some "right"]);
  creturn (s, k).
(** mparray.py 901-931 and 933-962; the value is the overlap, yielded last. *)
Definition compress_svd_r_call (rank : nat) (relerr : option (list K -> nat)) : call K :=
  run _ <- cassert (Nat.ltb 0 rank);
  run n <- eval (fun x => Ok (Z.of_nat (llen x)));
  run _ <- cgen (csvd_r_call rank relerr) (pyrange 0 (n - 1) 1);
  eval (fun x => do t <- pyget (lts x) (-1); Ok (abs2 t)).
Definition compress_svd_l_call (rank : nat) (relerr : option (list K -> nat)) : call K :=
  run _ <- cassert (Nat.ltb 0 rank);
  run n <- eval (fun x => Ok (Z.of_nat (llen x)));
  run _ <- cgen (csvd_l_call rank relerr) (pyrange (n - 1) 0 (-1));
  eval (fun x => do t <- pyget (lts x) 0; Ok (abs2 t)).
(** mparray.py 830-859 *)
Definition compress_svd_call (rank : option nat) (relerr : option (list K -> nat)) (direction : dirarg) (canon : bool) : call K :=
  run n <- eval (fun x => Ok (llen x));
  if Nat.eqb n 1 then norm_sq_call
  else
    run cf <- eval (fun x => Ok (canonical_form x));
    let '(ln, rn) := cf in
    let dir := match direction with
               | DNone => if (ln <? Z.of_nat n - rn)%Z then DLeft else DRight
               | d => d
               end in
    run rk <- eval (fun x => match rank with Some r => Ok r | None => max_rank x end);
    match dir with
    | DRight =>
        run _ <- (if canon then canonicalize_call CANone (CAInt 1) else creturn tt);
        compress_svd_r_call rk relerr
    | DLeft =>
        run _ <- (if canon then canonicalize_call (CAInt (Z.of_nat n - 1)) CANone else creturn tt);
        compress_svd_l_call rk relerr
    | _ => craise ValueError
    end.
End SVD.

(** mparray.py 964-985: the generator is pulled [len - 1] times; the update after the
    last yielded spectrum is not executed. *)
Definition singularvals_call (svd : nd K -> res (nd K * list K * nd K)) : call (list (list K)) :=
  run n <- eval (fun x => Ok (llen x));
  if Nat.eqb n 1 then creturn []
  else
    run _ <- canonicalize_call CANone (CAInt 1);
    run rk <- eval max_rank;
    run _ <- cassert (Nat.ltb 0 rk);
    run ys <- cgen (csvd_r_call svd (truncated_svd svd) rk None) (pyrange 0 (Z.of_nat n - 2) 1);
    run f <- eval (fun x => csvd_r_factor svd (truncated_svd svd) rk None x (Z.of_nat n - 2));
    let '(_, _, s, _, _) := f in
    creturn (map fst ys ++ [s]).
End QR.
End Calls.
