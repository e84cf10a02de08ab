(** Model of FiniteTempBasis(statistics, beta, wmax, eps, max_size=..., kernel=...)
    without sve_result: src/sparse_ir/basis.py:43-91 together with the call of
    sve.compute in line 58. *)
From Coq Require Import String ZArith Arith Bool Reals.
From Coq Require Import List.
From Verif.Model Require Import Base Util Num Gauss Poly FT SVE Basis Kernel Compute.
Import ListNotations.
Open Scope R_scope.

(** What the basis reads of a kernel of the library: kernel.py:159-160, 263-264 (lambda_)
    and kernel.py:79-81, 306 (ypower). *)
Definition kern_of (K : kernel) : kern := Kern (Some (k_lambda K)) (k_ypower K).

(** basis.py:315-329, _get_kernel: the kernel used. *)
Definition used_kernel (lam : R) (K : option kernel) : kernel :=
  match K with None => Logistic lam | Some K => K end.

Section Whole.
Variables (have_xprec have_gejsv : bool) (dd : R) (f : tfun).
Variable legendre : dtype -> nat -> res rule.
Variable run : svd_alg -> matrix -> Z -> usv.
Variable argsort : list R -> list nat.

(** basis.py:43-91.  [Ok None] means that the computed expansion holds numbers
    that are not finite. *)
Definition new_basis (statistics : string) (beta wmax : R) (eps : option R)
           (max_size : option pynum) (K : option kernel) : res (option basis) :=
  if negb (Rltb 0 beta) then Raise ValueError else
  if negb (Rleb 0 wmax) then Raise ValueError else
  do _ <- get_kernel statistics (beta * wmax) (option_map kern_of K);
  do o <- compute have_xprec have_gejsv dd f legendre run argsort (used_kernel (beta * wmax) K)
            (option_map Fin eps) None None None None None None;
  match o with
  | None => Ok None
  | Some r =>
      do b <- basis_init (fun _ _ => Ok r) statistics beta wmax eps max_size (option_map kern_of K) None;
      Ok (Some b)
  end.
End Whole.
