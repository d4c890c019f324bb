(** Kronecker products of arrays with different numbers of axes (C46). *)
From Verif Require Import PfKron2 Examples.
Open Scope nat_scope.

(** As [C46_mkron], for any numbers of axes: [r] is the largest one, the shapes of the other factors
    are filled up with ones and their indices with zeros on the left ([fill], numpy's rule). *)
Theorem C46_mkron_axes (K : StarRing) (a0 : nd K) args r : Forall ndwf (a0 :: args) -> Forall (fun a => ndim a <= r) (a0 :: args) -> Exists (fun a => ndim a = r) (a0 :: args) ->
  let shs := map (fun a => fill r 1 (shp a)) (a0 :: args) in
  exists z, mkron (a0 :: args) = Ok z /\ ndwf z /\ shp z = kron_shape r shs /\
    forall ix, Forall2 (fun i a => inr i (shp a)) ix (a0 :: args) -> get z (kron_idx r shs (map (fill r 0) ix)) = kprod (zip2 (@get K) (a0 :: args) ix).
Proof. exact (mkron_axes a0 args r). Qed.
Print Assumptions C46_mkron_axes.

(** A matrix, a vector and another matrix. *)
Example C46_axes_ex : let l := [mk [2; 1] [g 1 0; g 2 0]; mk [3] [g 0 1; g 3 0; g 1 1]; mk [1; 2] [g 1 1; g 1 0]] in
  Forall (@ndwf GZ) l /\ Forall (fun a : nd GZ => ndim a <= 2) l /\ Exists (fun a : nd GZ => ndim a = 2) l /\
  match mkron l with Ok z => shp z = [2; 6] /\ get z [1; 3] = g 6 0 | Err _ => False end.
Proof. cbv zeta. split; [repeat constructor|]. split; [repeat constructor|]. split; [left; reflexivity|]. vm_compute. auto. Qed.
