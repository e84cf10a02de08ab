(** A FiniteTempBasis in rounded arithmetic as seen by the sampling objects:
    sampling.py:131-132 and 182 ask for basis.u(points) and basis.uhat(points), and
    sampling.py:84-88 for abstract.py:181-184.  [old] chooses numpy's Clenshaw
    recursion, [F] is the library under uhat and [model] its high-frequency model.
    Without rounding this is [sb_of_basis] of Model/Sampling.v. *)
From Coq Require Import String ZArith Arith Bool Reals.
From Coquelicot Require Import Coquelicot.
From Coq Require Import List.
From Verif.Model Require Import Base Util Num Poly PolyIEEE FT FTIEEE SVE Basis Augment NDArray Sampling.
Import ListNotations.
Open Scope R_scope.

Definition sb_of_basis_rd (old : bool) (rd : R -> R) (F : flib) (model : nat -> Z -> C) (b : basis) : sbasis :=
  SBasis (fun x => do M <- vcall_arr_rd old rd (bu b) x; Ok (map (map RtoC) M))
         (ft_call_rd rd F model (buhat b)) (basis_well_conditioned b).
