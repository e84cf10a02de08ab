(** Slicing and rescaling bases, pairs of bases, and significance in rounded
    arithmetic: the functions of Model/Basis.v on top of [basis_init_rd].  Without
    rounding they are those functions (theorem C101_exact_arithmetic). *)
From Coq Require Import String ZArith Arith Bool Reals.
From Coq Require Import List.
From Verif.Model Require Import Base Util Num Poly FT SVE Basis BasisIEEE.
Import ListNotations.
Open Scope R_scope.

(** basis.py:93-97, __getitem__. *)
Definition basis_getitem_rd (rd : R -> R) (pw : R -> Z -> R) (compute : kern -> option R -> res sve_result) (b : basis) (i : pyidx) : res basis :=
  do n <- slice_to_size i;
  basis_init_rd rd pw compute (bstat b) (bbeta b) (bwmax b) None n (Some (bkernel b)) (Some (bsve b)).

(** basis.py:108-109, lambda_, and 154-156, significance. *)
Definition lambda_rd (rd : R -> R) (b : basis) : R := rd (bbeta b * bwmax b).
Definition significance_rd (rd : R -> R) (b : basis) : list R := map (fun x => rd (x / nth 0 (bs b) 0)) (bs b).

(** basis.py:199-209, rescale. *)
Definition rescale_rd (rd : R -> R) (pw : R -> Z -> R) (compute : kern -> option R -> res sve_result) (b : basis) (new_beta : R) : res basis :=
  match klam (bkernel b) with
  | None => Raise AttributeError
  | Some lam =>
      if Reqb new_beta 0 then Raise ZeroDivisionError else
      basis_init_rd rd pw compute (bstat b) new_beta (rd (lam / new_beta)) None (Some (PyInt (Z.of_nat (bsize b))))
                    (Some (bkernel b)) (Some (bsve b))
  end.

(** basis.py:212-225, finite_temp_bases. *)
Definition finite_temp_bases_rd (rd : R -> R) (pw : R -> Z -> R) (compute : kern -> option R -> res sve_result) (beta wmax : R)
           (eps : option R) (sve : option sve_result) : res (basis * basis) :=
  do r <- (match sve with
           | Some r => Ok r
           | None => compute (logistic (rd (beta * wmax))) eps
           end);
  do f <- basis_init_rd rd pw compute "F" beta wmax eps None None (Some r);
  do b <- basis_init_rd rd pw compute "B" beta wmax eps None None (Some r);
  Ok (f, b).

(** basis_set.py:27-42: the two bases of a FiniteTempBasisSet. *)
Definition basis_set_rd (rd : R -> R) (pw : R -> Z -> R) (compute : kern -> option R -> res sve_result) (beta wmax : R)
           (eps : option R) (sve : option sve_result) : res (basis * basis) :=
  match sve with
  | None => finite_temp_bases_rd rd pw compute beta wmax eps None
  | Some r =>
      do f <- basis_init_rd rd pw compute "F" beta wmax eps None None (Some r);
      do b <- basis_init_rd rd pw compute "B" beta wmax eps None None (Some r);
      Ok (f, b)
  end.
