(** Model of [POVM.linear_inversion_map] (povm/localpovm.py 73-81).  The argument [pinv] of the
    constructor (default [numpy.linalg.pinv]) is a parameter here. *)
From Verif Require Export LocalPovm.
Section LinInv.
Context {K : StarRing}.
Variable pinv : nd K -> res (nd K).
Definition linear_inversion_map (p : povm K) : res (nd K) := do m <- povm_pmap p; pinv m.
End LinInv.
