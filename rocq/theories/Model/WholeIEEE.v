(** Model of FiniteTempBasis(statistics, beta, wmax, eps, max_size=..., kernel=...)
    without sve_result in rounded arithmetic: src/sparse_ir/basis.py:43-91 together
    with the call of sve.compute in line 58.  [rd t] is the arithmetic of the working
    data type t of sve.compute and [ro] that of doubles, in which beta and wmax are
    given and the result is stored. *)
From Coq Require Import String ZArith Arith Bool Reals.
From Coq Require Import List.
From Verif.Model Require Import Base Util Num Gauss Poly FT SVE Basis Kernel Compute Whole SVEIEEE BasisIEEE.
Import ListNotations.
Open Scope R_scope.

Section Whole.
Variables (have_xprec have_gejsv : bool) (dd : R) (old : bool).
Variable rd : dtype -> R -> R.
Variable ro : R -> R.
Variable pw : R -> Z -> R.
Variable f : dtype -> tfun.
Variable dot : bool -> bool -> nat -> nat -> nat -> list R -> list R -> R.
Variable legendre : dtype -> nat -> res rule.
Variable run : svd_alg -> matrix -> Z -> usv.
Variable argsort : list R -> list nat.

(** basis.py:43-91.  [Ok None] means that the computed expansion holds numbers
    that are not finite. *)
Definition new_basis_rd (statistics : string) (beta wmax : R) (eps : option R)
           (max_size : option pynum) (K : option kernel) : res (option basis) :=
  if negb (Rltb 0 beta) then Raise ValueError else
  if negb (Rleb 0 wmax) then Raise ValueError else
  do _ <- get_kernel_rd ro statistics (ro (beta * wmax)) (option_map kern_of K);
  do o <- compute_rd have_xprec have_gejsv dd old rd ro f dot legendre run argsort (used_kernel (ro (beta * wmax)) K)
            (option_map Fin eps) None None None None None None;
  match o with
  | None => Ok None
  | Some r =>
      do b <- basis_init_rd ro pw (fun _ _ => Ok r) statistics beta wmax eps max_size (option_map kern_of K) None;
      Ok (Some b)
  end.
End Whole.
