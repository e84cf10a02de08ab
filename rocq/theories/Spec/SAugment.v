(** Specification vocabulary for augmentations. *)
From Coq Require Import String ZArith Reals.
From Coquelicot Require Import Coquelicot.
From Coq Require Import List.
From Verif.Model Require Import Base Util Num Poly FT SVE Basis Augment.
Import ListNotations.
Open Scope R_scope.

(** The inverse temperature an augmentation was made with. *)
Definition aug_beta (a : aug) : R :=
  match a with TauConst b => b | TauLinear b => b | MatsubaraConst b => b end.

(** The augmentation is the function f on its interval. *)
Definition is_function (a : aug) (f : R -> R) : Prop :=
  forall t, 0 <= t <= aug_beta a -> aug_call a (FltArr [Fin t]) = Ok [Fin (f t)].

(** The augmentations that are defined in imaginary time. *)
Definition tau_aug (a : aug) : Prop :=
  match a with MatsubaraConst _ => False | _ => True end.

(** Evaluation of an element u[l] at the points xs. *)
Definition item_values (i : aug + spoly) (xs : list R) : res (list xr) :=
  match i with
  | inl f => aug_call f (FltArr (map Fin xs))
  | inr p => do v <- collect (map (scall p) xs); Ok (map Fin v)
  end.

(** Evaluation of an element uhat[l] at the frequencies ns. *)
Definition hat_values (np_complex scalar : bool) (i : aug + ft) (ns : list Z) : res (list C) :=
  match i with
  | inl f => aug_hat np_complex f scalar (IntArr ns)
  | inr p => do M <- ft_call p ns; match M with [row] => Ok row | _ => Raise ValueError end
  end.

(** The l-th element of a list made of two parts. *)
Definition from_parts {A B} (l1 : list A) (l2 : list B) (l : nat) (x : A + B) : Prop :=
  match x with
  | inl a => nth_error l1 l = Some a
  | inr b => (List.length l1 <= l)%nat /\ nth_error l2 (l - List.length l1) = Some b
  end.

(** The argument asks for a function that exists only for bosons. *)
Definition bosonic_class (x : augarg) : Prop := x = ACls CTauConst \/ x = ACls CTauLinear.
