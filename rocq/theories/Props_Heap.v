(** C64: which objects a call can change.  A store has cells (LocalTensors
    objects) and objects (MPArrays, each with one cell); [val s o] is the state
    of object [o]; [exec] runs one call and returns the objects it returns. *)
From Verif Require Import Heap PfHeap Examples Oracles.
Open Scope nat_scope.

(** A program that starts without objects and contains no call that shares
    keeps all objects apart: each has a cell of its own. *)
Theorem C64_separate (K : StarRing) (qr : nd K -> res (nd K * nd K)) svd tsvd cs s : unshared qr svd tsvd empty_store cs -> runs qr svd tsvd empty_store cs = Ok s -> separate s.
Proof.
  intros U R. apply (runs_keeps qr svd tsvd cs empty_store s) in R; [apply R| |exact U]. split; [intros [|o] a; discriminate|constructor].
Qed.
Print Assumptions C64_separate.
(** Calls that return something return new objects and change nothing. *)
Theorem C64_new_objects_partial (K : StarRing) (qr : nd K -> res (nd K * nd K)) svd tsvd (s s' : store K) c rs : heap_wf s -> exec qr svd tsvd s c = Ok (s', rs) -> shares s c = false -> target c = None ->
  heap_wf s' /\ rs = seq (length (objs s)) (length rs) /\ length (objs s') = length (objs s) + length rs /\ (forall y, live s y -> val s' y = val s y) /\ (NoDup (objs s) -> NoDup (objs s')).
Proof. exact (exec_fresh qr svd tsvd s c s' rs). Qed.
Print Assumptions C64_new_objects_partial.
(** In-place calls change one object. *)
Theorem C64_in_place_partial (K : StarRing) (qr : nd K -> res (nd K * nd K)) svd tsvd (s s' : store K) c x rs : separate s -> exec qr svd tsvd s c = Ok (s', rs) -> target c = Some x ->
  live s x /\ rs = [x] /\ separate s' /\ length (objs s') = length (objs s) /\ forall y, y <> x -> val s' y = val s y.
Proof. exact (exec_target qr svd tsvd s c x s' rs). Qed.
Print Assumptions C64_in_place_partial.
(** Histories: objects that are never the target of an in-place call keep their value. *)
Theorem C64_history_partial (K : StarRing) (qr : nd K -> res (nd K * nd K)) svd tsvd cs (s s' : store K) : separate s -> runs qr svd tsvd s cs = Ok s' -> unshared qr svd tsvd s cs ->
  separate s' /\ length (objs s) <= length (objs s') /\ forall y, live s y -> (forall c, In c cs -> target c <> Some y) -> val s' y = val s y.
Proof. exact (runs_keeps qr svd tsvd cs s s'). Qed.
Print Assumptions C64_history_partial.
(** In-place calls on the results of a call leave all earlier objects alone,
    and in-place calls on earlier objects leave the results alone. *)
Theorem C64_results_partial (K : StarRing) (qr : nd K -> res (nd K * nd K)) svd tsvd (s s1 s2 : store K) c rs cs : separate s -> exec qr svd tsvd s c = Ok (s1, rs) -> shares s c = false -> target c = None ->
  (forall c', In c' cs -> exists r, In r rs /\ target c' = Some r) -> runs qr svd tsvd s1 cs = Ok s2 -> forall y, live s y -> val s2 y = val s y.
Proof. exact (results_independent qr svd tsvd s c s1 rs cs s2). Qed.
Print Assumptions C64_results_partial.
Theorem C64_arguments_partial (K : StarRing) (qr : nd K -> res (nd K * nd K)) svd tsvd (s s1 s2 : store K) c rs cs : separate s -> exec qr svd tsvd s c = Ok (s1, rs) -> shares s c = false -> target c = None ->
  (forall c', In c' cs -> exists y, live s y /\ target c' = Some y) -> runs qr svd tsvd s1 cs = Ok s2 -> forall r, In r rs -> val s2 r = val s1 r.
Proof. exact (arguments_independent qr svd tsvd s c s1 rs cs s2). Qed.
Print Assumptions C64_arguments_partial.
(** The calls that share: [+x], [x.group_sites(1)] and [x.split] at a position
    outside the chain return [x] itself, [MPArray(x.lt)] an object with its cell. *)
Theorem C64_sharing_calls (K : StarRing) (qr : nd K -> res (nd K * nd K)) svd tsvd (s : store K) x a : heap_wf s -> val s x = Some a ->
  exec qr svd tsvd s (CPos x) = Ok (s, [x]) /\
  (forall g, group_sites a 1 = Ok g -> exec qr svd tsvd s (CGroup x 1) = Ok (s, [x])) /\
  (forall pos, (pos < 0)%Z \/ (Z.of_nat (llen a) <= pos)%Z -> exec qr svd tsvd s (CSplit x pos) = Ok (s, [x])) /\
  (exists s' r, exec qr svd tsvd s (CWrap x) = Ok (s', [r]) /\ r = length (objs s) /\ cell_of s' r = cell_of s' x /\ val s' r = Some a /\ heap_wf s' /\ forall y, live s y -> cell_of s' y = cell_of s y /\ val s' y = val s y).
Proof. exact (shared_results qr svd tsvd s x a). Qed.
Print Assumptions C64_sharing_calls.
(** An in-place call reaches exactly the objects with the same cell. *)
Theorem C64_shared_change (K : StarRing) (qr : nd K -> res (nd K * nd K)) svd tsvd (s : store K) i x a b : heap_wf s -> val s x = Some a -> runi qr svd tsvd i a = Ok b ->
  exists s', exec qr svd tsvd s (CIn i x) = Ok (s', [x]) /\ heap_wf s' /\ (forall y, cell_of s' y = cell_of s y) /\
    forall y, (cell_of s y = cell_of s x -> val s' y = Some b) /\ (cell_of s y <> cell_of s x -> val s' y = val s y).
Proof. exact (shared_write qr svd tsvd s i x a b). Qed.
Print Assumptions C64_shared_change.
(** compress(method='var') ends the sharing. *)
Theorem C64_var_unshares (K : StarRing) (qr : nd K -> res (nd K * nd K)) svd tsvd (s s' : store K) x n r v rc rs : heap_wf s -> exec qr svd tsvd s (CVar x n r v rc) = Ok (s', rs) ->
  heap_wf s' /\ (forall y, y <> x -> val s' y = val s y) /\ forall y, y <> x -> cell_of s' y <> cell_of s' x.
Proof. exact (var_unshares qr svd tsvd s x n r v rc s' rs). Qed.
Print Assumptions C64_var_unshares.
(** Canonicalization, norms and singular values change no represented array,
    whatever is shared. *)
Theorem C64_reading (K : StarRing) (qr : nd K -> res (nd K * nd K)) svd tsvd cs (s s' : store K) : qr_sound qr -> svd_sound svd -> heap_wf s -> all_good s ->
  (forall c, In c cs -> exists i x, c = CIn i x /\ reading i = true) -> runs qr svd tsvd s cs = Ok s' -> all_good s' /\ forall y, represents s' y = represents s y.
Proof. intros Hq Hs. exact (reading_shared qr svd tsvd Hq Hs cs s s'). Qed.
Print Assumptions C64_reading.
(** Real part of the first entry, to tell arrays apart *)
Definition first_re (p : option (list (list nat) * nd GZ)) : Z := match p with Some (_, t) => fst (nth 0 (dat t) (gi 0)) | None => 0%Z end.
(** The full claim fails: after a call that shares, [*= 2] on the result
    changes what the argument represents. *)
Theorem C64_aliasing_refuted : forall c, In c [CPos 0; CGroup 0 1; CSplit 0 (-1); CSplit 0 3; CWrap 0] ->
  exists (s s1 s2 : store GZ) (r : nat), separate s /\ runs qr_gz svd_gz tsvd_gz empty_store [CNew (lts ex_ghz)] = Ok s /\ exec qr_gz svd_gz tsvd_gz s c = Ok (s1, [r]) /\
    exec qr_gz svd_gz tsvd_gz s1 (CIn (IImul (gi 2)) r) = Ok (s2, [r]) /\ represents s2 0 <> represents s 0.
Proof.
  set (s := from_ok (runs qr_gz svd_gz tsvd_gz empty_store [CNew (lts ex_ghz)]) empty_store). intros c Hc. exists s.
  set (p := from_ok (exec qr_gz svd_gz tsvd_gz s c) (s, [])). set (r := nth 0 (snd p) 0). exists (fst p), (fst (from_ok (exec qr_gz svd_gz tsvd_gz (fst p) (CIn (IImul (gi 2)) r)) (s, []))), r.
  assert (W : separate s) by (apply (C64_separate GZ qr_gz svd_gz tsvd_gz [CNew (lts ex_ghz)]); [split; [reflexivity|intros; exact I]|vmc]).
  split; [exact W|]. split; [vmc|]. clear W. subst r p. cbn [In] in Hc.
  repeat (destruct Hc as [<-|Hc]; [split; [vmc|split; [vmc|intros H; apply (f_equal first_re) in H; match type of H with ?u = ?v => assert (N : u = 6%Z) by vmc; assert (M : v = 3%Z) by vmc end; congruence]]|]). contradiction.
Qed.
Print Assumptions C64_aliasing_refuted.
(** A program: [x = MPArray(...)], [y = x.copy()], [z = x + y], [y *= 2],
    [norm(z)]; [x] is as before, [y] is not, and [z] is the sum of the old values. *)
Definition ex_prog : list (call GZ) := [CNew (lts ex_ghz); C1 OCopy 0; C2 OAdd 0 1; CIn (IImul (gi 2)) 1; CIn INorm 2].
Example C64_ex : unshared qr_gz svd_gz tsvd_gz empty_store ex_prog /\
  match runs qr_gz svd_gz tsvd_gz empty_store ex_prog with
  | Ok s => length (objs s) = 3 /\ represents s 0 = Some (mshape ex_ghz, to_array ex_ghz) /\ represents s 1 <> represents s 0 /\ represents s 2 = represents s 1
  | Err _ => False end.
Proof.
  split; [repeat (split; [reflexivity|intros ? _]); exact I|].
  set (s := from_ok (runs qr_gz svd_gz tsvd_gz empty_store ex_prog) empty_store). assert (E : runs qr_gz svd_gz tsvd_gz empty_store ex_prog = Ok s) by vmc. rewrite E.
  split; [vmc|]. split; [vmc|]. split; [|vmc]. intros H. apply (f_equal first_re) in H. assert (N : first_re (represents s 1) = 6%Z) by vmc. assert (M : first_re (represents s 0) = 3%Z) by vmc. congruence.
Qed.
