(** Specification vocabulary for the irbasis replacement. *)
From Coq Require Import String ZArith Reals Sorting.Sorted.
From Coquelicot Require Import Coquelicot.
From Coq Require Import List.
From Verif.Model Require Import Base Poly FT SVE Basis Adapter.
From Verif.Spec Require Import SRoots SPoly SFT SBasis.
Import ListNotations.
Open Scope R_scope.

(** No two neighbouring values from position i to position j have strictly
    opposite signs. *)
Definition no_flip (fn : list R) (i j : nat) : Prop :=
  forall k, (i <= k < j)%nat -> ~ nth k fn 0 * nth (S k) fn 0 < 0.

(** i and j belong to the same piece of constant sign. *)
Definition same_piece (fn : list R) (i j : nat) : Prop := no_flip fn i j /\ no_flip fn j i.

(** p is the first position in its piece at which the magnitude is largest. *)
Definition first_largest (fn : list R) (p : nat) : Prop :=
  (p < List.length fn)%nat /\
  forall i, (i < List.length fn)%nat -> same_piece fn i p ->
    Rabs (nth i fn 0) <= Rabs (nth p fn 0) /\ ((i < p)%nat -> Rabs (nth i fn 0) < Rabs (nth p fn 0)).

(** The pairs of neighbours in the list at which f has strictly opposite signs,
    in order. *)
Fixpoint opposite_pairs (f : R -> R) (xs : list R) : list (R * R) :=
  match xs with
  | x0 :: ((x1 :: _) as rest) =>
      (if Rlt_dec (f x0 * f x1) 0 then [(x0, x1)] else []) ++ opposite_pairs f rest
  | _ => []
  end.

(** z lies strictly between the mesh points of the pair and is the centre of an
    interval, not longer than 1e-14, in which f changes sign. *)
Definition narrow_change (f : R -> R) (pair : R * R) (z : R) : Prop :=
  fst pair < z < snd pair /\
  exists lo hi, fst pair <= lo < hi /\ hi <= snd pair /\ z = (lo + hi) / 2 /\ hi - lo <= / 10 ^ 14 /\
    f lo * f hi <= 0 /\ f hi <> 0.

(** The points are strictly interlaced with the nodes: one point strictly inside
    every gap between neighbouring nodes. *)
Definition interlaced (nodes pts : list R) : Prop :=
  List.length nodes = S (List.length pts) /\
  forall i, (i < List.length pts)%nat -> nth i nodes 0 < nth i pts 0 < nth (S i) nodes 0.

(** A basis of the adapter made from a well-formed expansion. *)
Definition adapted (b : abasis) : Prop :=
  exists r, adapter_basis (astat b) (alam b) r = Ok b /\ sve_ok r.

(** The reduced Matsubara frequency with index n. *)
Definition freq_of (b : abasis) (n : Z) : Z := if string_dec (astat b) "F" then (2 * n + 1)%Z else (2 * n)%Z.

(** v is the value of the Fourier transform of function l at index n. *)
Definition unl_value (b : abasis) (l : nat) (n : Z) (v : C) : Prop :=
  exists M, ft_call (auhat b) [freq_of b n] = Ok M /\ entry M l 0 = Some v.

(** What remains of an index if axes of length one are removed. *)
Fixpoint drop_ones (shape idx : list nat) : list nat :=
  match shape, idx with
  | n :: s, i :: idx' => if Nat.eqb n 1 then drop_ones s idx' else i :: drop_ones s idx'
  | _, _ => []
  end.

(** The functions alternate between even and odd, and are marked as such. *)
Definition alternating (b : abasis) : Prop :=
  forall l c, nth_error (vcols (au b)) l = Some c ->
    csym c = (-1) ^ l /\ has_parity (vgeom (au b)) c ((-1) ^ l).

(** Index of the frequency of opposite sign. *)
Definition mirror_index (b : abasis) (n : Z) : Z := if string_dec (astat b) "F" then (- n - 1)%Z else (- n)%Z.

(** Whether the transform of function l is real (it is imaginary otherwise). *)
Definition real_row (b : abasis) (l : nat) : bool :=
  if string_dec (astat b) "F" then Nat.odd l else Nat.even l.
