(** The attributes of the objects that implement abstract.py:4-184, AbstractBasis:
    FiniteTempBasis, AugmentedBasis and DiscreteLehmannRepresentation, and the
    operations that make one from another.  Arithmetic is exact.  An augmented basis
    of an augmented basis is not modelled. *)
From Coq Require Import String ZArith Arith Bool Reals.
From Coquelicot Require Import Coquelicot.
From Coq Require Import List.
From Verif.Model Require Import Base Util Num Poly FT SVE Basis Kernel NDArray Sampling Augment DLR.
Import ListNotations.
Open Scope R_scope.

Inductive obj := OFinite (b : basis) | OAug (a : augbasis) | ODlr (d : dlr).

(** basis.py:99-100, augment.py:70-72, dlr.py:64-66, statistics. *)
Definition o_statistics (o : obj) : res string :=
  match o with
  | OFinite b => Ok (bstat b)
  | OAug a => aug_statistics a
  | ODlr d => Ok (bstat (dl_basis d))
  end.

(** basis.py:102-103, augment.py:101-103, dlr.py:87-89, beta. *)
Definition o_beta (o : obj) : R :=
  match o with OFinite b => bbeta b | OAug a => bbeta (abasis a) | ODlr d => bbeta (dl_basis d) end.

(** basis.py:105-106, augment.py:105-107, dlr.py:91-93, wmax. *)
Definition o_wmax (o : obj) : R :=
  match o with OFinite b => bwmax b | OAug a => bwmax (abasis a) | ODlr d => bwmax (dl_basis d) end.

(** basis.py:108-109, augment.py:97-99, dlr.py:83-85, lambda_. *)
Definition b_lambda (b : basis) : R := bbeta b * bwmax b.
Definition o_lambda (o : obj) : R :=
  match o with OFinite b => b_lambda b | OAug a => b_lambda (abasis a) | ODlr d => b_lambda (dl_basis d) end.

(** basis.py:114-115, augment.py:85-87, dlr.py:75-76, size. *)
Definition o_size (o : obj) : nat :=
  match o with
  | OFinite b => List.length (bs b)
  | OAug a => (naug a + bsize (abasis a))%nat
  | ODlr d => List.length (dl_poles d)
  end.

(** basis.py:111-112, augment.py:81-83, dlr.py:72-73, shape. *)
Definition o_shape (o : obj) : list nat :=
  match o with OFinite b => [List.length (bs b)] | OAug _ | ODlr _ => [o_size o] end.

(** basis.py:155-157, augment.py:89-91, dlr.py:95-97, significance. *)
Definition o_significance (o : obj) : list R :=
  match o with
  | OFinite b => significance b
  | OAug a => significance (abasis a)
  | ODlr d => repeat 1 (o_size (ODlr d))
  end.

(** basis.py:159-161, augment.py:93-95, dlr.py:99-101, accuracy. *)
Definition o_accuracy (o : obj) : R :=
  match o with OFinite b => bacc b | OAug a => bacc (abasis a) | ODlr d => bacc (dl_basis d) end.

(** basis.py:163-166; neither an augmented basis nor a DLR object has a kernel. *)
Definition o_kernel (o : obj) : res kern :=
  match o with OFinite b => Ok (bkernel b) | OAug _ | ODlr _ => Raise AttributeError end.

(** basis.py:168-170, sve_result. *)
Definition o_sve (o : obj) : res sve_result :=
  match o with OFinite b => Ok (bsve b) | OAug _ | ODlr _ => Raise AttributeError end.

(** abstract.py:181-184, augment.py:125-130, dlr.py:127-129, is_well_conditioned. *)
Definition o_well (o : obj) : bool :=
  match o with
  | OFinite b => basis_well_conditioned b
  | OAug a => aug_well_conditioned a
  | ODlr _ => dlr_well_conditioned
  end.

(** basis.py:117-118, augment.py:62-64, dlr.py:58-59: the values of u at an array of
    times, one row for each function. *)
Definition o_u (f : tfun) (o : obj) (tau : list R) : res (list (list xr)) :=
  match o with
  | OFinite b => do M <- vcall_arr (bu b) tau; Ok (map (map Fin) M)
  | OAug a => augu_call a tau
  | ODlr d => do M <- taupoles_call f (dl_u d) (map Fin tau); Ok (map (map Fin) M)
  end.

(** basis.py:120-121, augment.py:66-68, dlr.py:61-62: the values of uhat at an array
    of integers, one row for each function; [None] is NaN. *)
Definition o_uhat (f : tfun) (np_complex : bool) (o : obj) (n : list Z) : res (list (list (option C))) :=
  match o with
  | OFinite b => do M <- ft_call (buhat b) n; Ok (map (map Some) M)
  | OAug a => do M <- auguhat_call np_complex a false n; Ok (map (map Some) M)
  | ODlr d => matspoles_call (dl_uhat d) (map IZR n)
  end.

(** What a user does with a basis object: basis[i], basis.rescale(beta),
    AugmentedBasis(basis, ...), DiscreteLehmannRepresentation(basis, poles). *)
Inductive op := Slice (i : pyidx) | Rescale (new_beta : R) | Augment (args : list augarg) | Lehmann (poles : list R).

Section Step.
Variable compute : kern -> option R -> res sve_result.
Variable svd : mat -> svd_result.
Variable logistic : bool.     (* the kernel of the basis is a LogisticKernel *)

(** The index of an augmented basis (Model/Augment.v): integer bounds only. *)
Definition aug_index (i : pyidx) : option augidx :=
  match i with
  | IdxInt z => Some (AIdxInt z)
  | IdxSlice start None step => Some (AIdxSlice start None step)
  | IdxSlice start (Some (PyInt z)) step => Some (AIdxSlice start (Some z) step)
  | IdxSlice _ (Some _) _ => None
  end.

(** One operation; [None] is a case that is not modelled.  A DLR object inherits
    __getitem__ of abstract.py:101-107; rescale, kernel and ndim (augment.py:135) are
    missing where AttributeError is raised. *)
Definition step (o : obj) (p : op) : option (res obj) :=
  match o, p with
  | OFinite b, Slice i => Some (do b' <- basis_getitem compute b i; Ok (OFinite b'))
  | OFinite b, Rescale t => Some (do b' <- rescale compute b t; Ok (OFinite b'))
  | OFinite b, Augment args => Some (do a <- augbasis_init b args; Ok (OAug a))
  | OFinite b, Lehmann poles => Some (do d <- dlr_init svd b logistic poles; Ok (ODlr d))
  | OAug a, Slice i =>
      match aug_index i with
      | Some i' => Some (do a' <- augbasis_getitem compute a i'; Ok (OAug a'))
      | None => None
      end
  | OAug a, Rescale _ => Some (Raise AttributeError)
  | OAug a, Augment _ => None
  | OAug a, Lehmann _ => Some (Raise AttributeError)
  | ODlr d, Slice _ => Some (Raise NotImplementedError)
  | ODlr d, Rescale _ => Some (Raise AttributeError)
  | ODlr d, Augment args => Some (do _ <- aug_factory (dl_basis d) args; Raise AttributeError)
  | ODlr d, Lehmann _ => Some (Raise AttributeError)
  end.

(** A sequence of operations; it ends with the first exception. *)
Fixpoint history (o : obj) (ps : list op) : option (res obj) :=
  match ps with
  | [] => Some (Ok o)
  | p :: ps' =>
      match step o p with
      | None => None
      | Some (Raise e) => Some (Raise e)
      | Some (Ok o') => history o' ps'
      end
  end.
End Step.
