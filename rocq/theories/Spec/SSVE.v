(** Specification vocabulary for truncation of singular value expansions. *)
From Coq Require Import String ZArith Reals Sorting.Sorted.
From Coq Require Import List.
From Verif.Model Require Import Base Util Poly SVE.
Import ListNotations.
Open Scope R_scope.

(** All singular values of all blocks. *)
Definition all_values {A B} (blocks : list (block A B)) : list R := flat_map (fun b => snd (fst b)) blocks.

(** [k] values are within the limit [lmax]. *)
Definition within (k : nat) (lmax : option pynum) : Prop :=
  match lmax with
  | None => True
  | Some (PyInt z) => (Z.of_nat k <= z)%Z
  | Some (PyFloat (Fin x)) => INR k <= x
  | Some (PyFloat _) => False
  end.

(** [x] is above the relative tolerance, and the number of values not below it
    is within the limit. *)
Definition significant (vals : list R) (r : R) (lmax : option pynum) (x : R) : Prop :=
  (forall M, In M vals -> (forall y, In y vals -> y <= M) -> r * M < x) /\
  within (List.length (filter (fun y => Rleb x y) vals)) lmax.

Definition nonincreasing (s : list R) : Prop := StronglySorted (fun a b => b <= a) s.

(** [b'] consists of the first k columns and values of [b]. *)
Definition prefix_of {A B} (k : nat) (b b' : block A B) : Prop :=
  b' = (firstn k (fst (fst b)), firstn k (snd (fst b)), firstn k (snd b)).

(** A size limit or tolerance the documentation calls invalid. *)
Definition invalid_lmax (lmax : option pynum) : Prop :=
  match lmax with
  | None => False
  | Some (PyInt z) => (z < 0)%Z
  | Some (PyFloat (Fin x)) => x < 0 \/ ~ exists z, x = IZR z
  | Some (PyFloat PInf) => False
  | Some (PyFloat _) => True
  end.
Definition valid_rtol (rtol : xr) (r : R) : Prop := rtol = Fin r /\ 0 <= r <= 1.

(** The (possibly infinite or undefined) number e is smaller than s. *)
Definition below (e : xr) (s : R) : Prop :=
  match e with Fin x => x < s | NInf => True | _ => False end.
