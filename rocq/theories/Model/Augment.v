(** Model of src/sparse_ir/augment.py: the augmentations and AugmentedBasis.
    Arithmetic is exact.  The inner basis is a FiniteTempBasis (Model/Basis);
    augmented bases of other bases are not modelled. *)
From Coq Require Import String ZArith Arith Bool Reals.
From Coquelicot Require Import Coquelicot.
From Coq Require Import List.
From Verif.Model Require Import Base Util Num Roots Poly FT SVE Basis.
Import ListNotations.
Open Scope R_scope.

(** augment.py:226-307: an augmentation object and its self._beta.  TauLinear's
    self._norm is sqrt(3/beta) (line 264). *)
Inductive aug := TauConst (beta : R) | TauLinear (beta : R) | MatsubaraConst (beta : R).

(** augment.py:226, 253, 287: the three classes. *)
Inductive augcls := CTauConst | CTauLinear | CMatsubaraConst.

(** augment.py:233-236, 260-264, 293-296, __init__. *)
Definition aug_init (c : augcls) (beta : R) : res aug :=
  if Rleb beta 0 then Raise ValueError else
  Ok (match c with CTauConst => TauConst beta | CTauLinear => TauLinear beta
                 | CMatsubaraConst => MatsubaraConst beta end).

(** augment.py:318-324, _check_bosonic_statistics. *)
Definition check_bosonic_statistics (statistics : string) : res unit :=
  if String.eqb statistics "B" then Ok tt else Raise ValueError.

(** augment.py:228-231, 255-258, 289-291, create. *)
Definition aug_create (c : augcls) (b : basis) : res aug :=
  match c with
  | CMatsubaraConst => aug_init c (bbeta b)
  | _ => do _ <- check_bosonic_statistics (bstat b); aug_init c (bbeta b)
  end.

(** np.asarray of the argument, as floating-point numbers. *)
Definition as_floats (x : nparr) : list xr :=
  match x with IntArr l => map (fun z => Fin (IZR z)) l | FltArr l => l end.

(** augment.py:238-240, 266-269, 298-300, __call__ on an array of any shape,
    given by its elements; check_range lets only finite numbers through. *)
Definition aug_call (a : aug) (tau : nparr) : res (list xr) :=
  match a with
  | TauConst beta =>
      do t <- check_range (as_floats tau) 0 beta; Ok (map (fun _ => Fin (1 / sqrt beta)) t)
  | TauLinear beta =>
      do t <- check_range (as_floats tau) 0 beta;
      Ok (map (fun x => match x with
                        | Fin x => Fin (sqrt (3 / beta) * (2 / beta * x - 1))
                        | _ => NaN
                        end) t)
  | MatsubaraConst beta =>
      do t <- check_range (as_floats tau) 0 beta; Ok (map (fun _ => NaN) t)
  end.

(** np.full_like(tau, c): the array has the element type of tau, so that for
    integers c is cast to an integer. *)
Definition full_like (tau : nparr) (c : R) : list xr :=
  match tau with
  | IntArr l => map (fun _ => Fin (IZR (astype_int (Fin c)))) l
  | FltArr l => map (fun _ => Fin c) l
  end.

(** augment.py:242-246, 271-278, 302-303, deriv(n), and the function returned.
    The functions returned for n > 0 do not check the range. *)
Definition aug_deriv (a : aug) (n : nat) (tau : nparr) : res (list xr) :=
  match a, n with
  | MatsubaraConst _, _ => aug_call a tau
  | _, O => aug_call a tau
  | TauLinear beta, S O => Ok (full_like tau (sqrt (3 / beta) * 2 / beta))
  | _, _ => Ok (full_like tau 0)
  end.

(** augment.py:248-250, 280-284, 305-307, hat(n).  [np_complex] says whether the
    installed numpy still has the attribute np.complex (removed in 1.24).  For a
    zero-dimensional n ([scalar]), the product with n in line 282 is a scalar and
    not an array, and is refused as [out=] argument in line 283. *)
Definition aug_hat (np_complex : bool) (a : aug) (scalar : bool) (n : nparr) : res (list C) :=
  match a with
  | TauConst beta =>
      do ns <- check_reduced_matsubara n (Some 0%Z);
      if negb np_complex then Raise AttributeError else
      Ok (map (fun k => if (k =? 0)%Z then RtoC (sqrt beta) else RtoC 0) ns)
  | TauLinear beta =>
      do ns <- check_reduced_matsubara n (Some 0%Z);
      if scalar then Raise TypeError else
      Ok (map (fun k => let inv_w := PI / beta * IZR k in
                        let inv_w := if (k =? 0)%Z then inv_w else / inv_w in
                        Cmult (Cdiv (RtoC (sqrt (3 / beta) * 2)) Ci) (RtoC inv_w)) ns)
  | MatsubaraConst beta =>
      do ns <- check_reduced_matsubara n None; Ok (map (fun _ => RtoC 1) ns)
  end.

(** augment.py:52-60: the arguments of AugmentedBasis are objects or classes,
    and the object consists of the basis and the augmentations; its u and uhat
    are the functions below applied to these. *)
Inductive augarg := AObj (a : aug) | ACls (c : augcls).
Record augbasis := AugBasis { abasis : basis; aaugs : list aug }.

(** augment.py:310-315, _augmentation_factory. *)
Definition aug_factory (b : basis) (args : list augarg) : res (list aug) :=
  collect (map (fun x => match x with AObj a => Ok a | ACls c => aug_create c b end) args).

(** augment.py:52-60, __init__ (u and uhat of the inner basis are vectors, so
    that the test in line 135 does not fail). *)
Definition augbasis_init (b : basis) (args : list augarg) : res augbasis :=
  do augs <- aug_factory b args; Ok (AugBasis b augs).

(** augment.py:153-159, __call__ of u on an array of floats. *)
Definition augu_call (a : augbasis) (x : list R) : res (list (list xr)) :=
  do fbasis_x <- vcall_arr (bu (abasis a)) x;
  do faug_x <- collect (map (fun f => aug_call f (FltArr (map Fin x))) (aaugs a));
  Ok (faug_x ++ map (map Fin) fbasis_x).

(** augment.py:153-159, __call__ of uhat on an array of integers. *)
Definition auguhat_call (np_complex : bool) (a : augbasis) (scalar : bool) (n : list Z) : res (list (list C)) :=
  do fbasis_n <- ft_call (buhat (abasis a)) n;
  do faug_n <- collect (map (fun f => aug_hat np_complex f scalar (IntArr n)) (aaugs a));
  Ok (faug_n ++ fbasis_n).

(** augment.py:149-151, 85-87. *)
Definition naug (a : augbasis) : nat := List.length (aaugs a).
Definition augsize (a : augbasis) : nat := (naug a + bsize (abasis a))%nat.

(** augment.py:168-173, __getitem__ with an integer, for u: an augmentation or a
    polynomial of the inner basis.  Python indexes the tuple of augmentations
    with a negative number from its end. *)
Definition augu_item (a : augbasis) (l : Z) : res (aug + spoly) :=
  if (l <? Z.of_nat (naug a))%Z
  then match pyindex (aaugs a) l with Some f => Ok (inl f) | None => Raise IndexError end
  else do p <- getitem (bu (abasis a)) (l - Z.of_nat (naug a)); Ok (inr p).

(** The same for uhat, where the augmentation stands for its method hat. *)
Definition auguhat_item (a : augbasis) (l : Z) : res (aug + ft) :=
  if (l <? Z.of_nat (naug a))%Z
  then match pyindex (aaugs a) l with Some f => Ok (inl f) | None => Raise IndexError end
  else do p <- ft_item (buhat (abasis a)) (l - Z.of_nat (naug a)); Ok (inr p).

(** augment.py:74-79, AugmentedBasis.__getitem__ for an integer stop or None;
    the comparison None <= int raises TypeError.  Float bounds are not modelled. *)
Inductive augidx := AIdxInt (z : Z) | AIdxSlice (start stop step : option Z).
Definition aug_slice_to_size (i : augidx) : res Z :=
  match i with
  | AIdxInt z => do _ <- slice_to_size (IdxInt z); Raise TypeError
  | AIdxSlice start stop step =>
      do _ <- slice_to_size (IdxSlice start (option_map PyInt stop) step);
      match stop with None => Raise TypeError | Some z => Ok z end
  end.
Definition augbasis_getitem (compute : kern -> option R -> res sve_result) (a : augbasis) (i : augidx) : res augbasis :=
  do stop <- aug_slice_to_size i;
  if (stop <=? Z.of_nat (naug a))%Z then Raise ValueError else
  do b <- basis_getitem compute (abasis a) (IdxSlice None (Some (PyInt (stop - Z.of_nat (naug a)))) None);
  augbasis_init b (map AObj (aaugs a)).

(** augment.py:161-167, __getitem__ of u with a slice: the functions left. *)
Definition augu_slice (a : augbasis) (i : augidx) : res (list aug * vpoly) :=
  match i with
  | AIdxInt _ => Raise TypeError     (* an integer is not a slice: see augu_item *)
  | AIdxSlice _ _ _ =>
      do stop <- aug_slice_to_size i;
      if (stop <=? Z.of_nat (naug a))%Z then Raise NotImplementedError else
      Ok (aaugs a, getslice (bu (abasis a)) (stop - Z.of_nat (naug a)))
  end.

(** augment.py:70-72: [raise self._basis.statistics] raises a string, which is
    not an exception. *)
Definition aug_statistics (a : augbasis) : res string := Raise TypeError.

(** augment.py:177-183, xmin and xmax of u. *)
Definition augu_xmin (a : augbasis) : R := gxmin (vgeom (bu (abasis a))).
Definition augu_xmax (a : augbasis) : R := gxmin (vgeom (bu (abasis a))).

(** augment.py:134-139 and 185-189, deriv(n).  The derivatives are spread over
    the positional arguments of a constructor that takes one argument, a
    sequence; neither an augmentation nor a Python function has a length. *)
Inductive pyarg := PySeq (augs : list aug) | PyFun (f : nparr -> res (list xr)).
Definition augu_construct (fbasis : vpoly) (args : list pyarg) : res (vpoly * list aug) :=
  match args with
  | [PySeq augs] => Ok (fbasis, augs)
  | [PyFun _] => Raise TypeError       (* len(faug) *)
  | _ => Raise TypeError               (* wrong number of arguments *)
  end.
Definition augu_deriv (a : augbasis) (n : nat) : res (vpoly * list aug) :=
  let dbasis := vderiv n (bu (abasis a)) in
  let daug := map (fun f => PyFun (aug_deriv f n)) (aaugs a) in
  augu_construct dbasis daug.

(** abstract.py:181-184 and augment.py:125-130, is_well_conditioned. *)
Definition basis_well_conditioned (b : basis) : bool := true.
Definition aug_well_conditioned (a : augbasis) : bool :=
  basis_well_conditioned (abasis a) &&
  match aaugs a with [MatsubaraConst _] => true | _ => false end.

(** augment.py:109-116, default_tau_sampling_points. *)
Definition aug_default_tau (rnd : R -> R) (fuel : nat) (a : augbasis) (npoints : option Z) :=
  default_tau rnd fuel (abasis a)
    (Some (match npoints with None => Z.of_nat (augsize a) | Some n => n end)).
