(** Specification vocabulary for the attributes of basis objects (C94). *)
From Coq Require Import String ZArith Reals.
From Coquelicot Require Import Coquelicot.
From Coq Require Import List.
From Verif.Model Require Import Base Util Num Poly FT SVE Basis Kernel NDArray Sampling Augment DLR Access.
From Verif.Spec Require Import SPoly SFT SSVE SBasis.
Import ListNotations.
Open Scope R_scope.

(** The temperatures a sequence of operations asks for, in order. *)
Definition betas (ps : list op) : list R :=
  flat_map (fun p => match p with Rescale t => [t] | _ => [] end) ps.

(** [o] is what a sequence of operations makes of a basis from the constructor. *)
Definition made (compute : kern -> option R -> res sve_result) (svd : mat -> svd_result) (logistic : bool)
    (b : basis) (ps : list op) (o : obj) : Prop :=
  built compute b /\ history compute svd logistic (OFinite b) ps = Some (Ok o).

(** The basis inside an object. *)
Definition inner (o : obj) : basis :=
  match o with OFinite b => b | OAug a => abasis a | ODlr d => dl_basis d end.

(** One number in (0, 1] for each function. *)
Definition one_each (o : obj) (s : list R) : Prop :=
  List.length s = o_size o /\ Forall (fun x => 0 < x <= 1) s.
