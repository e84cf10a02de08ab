(** Model of src/sparse_ir/_util.py: argument validation. *)
From Coq Require Import List ZArith Bool Reals.
From Verif.Model Require Import Base.
Import ListNotations.

(** IEEE doubles as far as validation is concerned: finite values are exact
    reals, plus the two infinities and NaN (signed zeros are identified). *)
Inductive xr := Fin (r : R) | PInf | NInf | NaN.

(** Arrays handed to the validators: integer dtype or floating dtype.
    (Boolean, complex and object dtypes are not modelled.) *)
Inductive nparr := IntArr (l : list Z) | FltArr (l : list xr).

Definition int64_min : Z := (- 2 ^ 63)%Z.
Definition int64_max : Z := (2 ^ 63 - 1)%Z.

(** Truncation of a real towards zero. *)
Definition Rtrunc (r : R) : Z :=
  if Rle_dec 0 r then Int_part r else (- Int_part (- r))%Z.

(** _util.py:55  [nfloat.astype(int)] for one element.  Values outside int64,
    infinities and NaN give INT64_MIN, as the x86-64 conversion does. *)
Definition astype_int (x : xr) : Z :=
  match x with
  | Fin r =>
      let z := Rtrunc r in
      if ((int64_min <=? z) && (z <=? int64_max))%Z%bool then z else int64_min
  | PInf | NInf | NaN => int64_min
  end.

(** IEEE comparisons: every comparison with NaN is false. *)
Definition xeqb (x y : xr) : bool :=
  match x, y with
  | Fin a, Fin b => Reqb a b
  | PInf, PInf => true
  | NInf, NInf => true
  | _, _ => false
  end.
Definition xleb (x y : xr) : bool :=
  match x, y with
  | NaN, _ => false
  | _, NaN => false
  | NInf, _ => true
  | _, PInf => true
  | Fin a, Fin b => Rleb a b
  | _, _ => false
  end.
Definition xgeb (x y : xr) : bool := xleb y x.

(** _util.py:40-61  check_reduced_matsubara.  [zeta] is None, 0 or 1. *)
Definition check_reduced_matsubara (n : nparr) (zeta : option Z) : res (list Z) :=
  do ints <-
    (match n with
     | IntArr l => Ok l
     | FltArr nfloat =>
         let ints := map astype_int nfloat in
         if forallb (fun p => xeqb (Fin (IZR (fst p))) (snd p)) (combine ints nfloat)
         then Ok ints else Raise ValueError
     end) ;
  match zeta with
  | None => Ok ints
  | Some z =>
      if forallb (fun k => Z.eqb (Z.land k 1) z) ints then Ok ints else Raise ValueError
  end.

(** _util.py:64-71  check_range with finite bounds. *)
Definition check_range (x : list xr) (xmin xmax : R) : res (list xr) :=
  if negb (forallb (fun a => xgeb a (Fin xmin)) x) then Raise ValueError else
  if negb (forallb (fun a => xleb a (Fin xmax)) x) then Raise ValueError else
  Ok x.

(** _util.py:74-88  check_svd_result.  Only shapes matter; a shape is the list
    of dimensions, and unpacking a shape of wrong rank (lines 77-79) raises
    ValueError in Python. *)
Definition check_svd_result (u_shape s_shape v_shape : list nat)
           (matrix_shape : option (nat * nat)) : res (nat * nat * nat) :=
  match u_shape, s_shape, v_shape with
  | [m_u; k_u], [k_s], [k_v; n_v] =>
      if negb (Nat.eqb k_u k_s) || negb (Nat.eqb k_s k_v) then Raise ValueError else
      match matrix_shape with
      | Some (m, n) =>
          if negb (Nat.eqb m_u m) || negb (Nat.eqb n_v n) then Raise ValueError
          else Ok (m_u, k_s, n_v)
      | None => Ok (m_u, k_s, n_v)
      end
  | _, _, _ => Raise ValueError
  end.
