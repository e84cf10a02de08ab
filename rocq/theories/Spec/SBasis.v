(** Specification vocabulary for singular value expansions and bases. *)
From Coq Require Import String ZArith Reals Sorting.Sorted.
From Coquelicot Require Import Coquelicot.
From Coq Require Import List.
From Verif.Model Require Import Base Util Num Poly FT SVE Basis.
From Verif.Spec Require Import SPoly SFT SSVE.
Import ListNotations.
Open Scope R_scope.

(** The first n functions of a set. *)
Definition take (n : nat) (p : vpoly) : vpoly := VPoly (vgeom p) (firstn n (vcols p)).

(** A singular value expansion as the library computes it: functions on [-1, 1],
    as many left and right functions as singular values, at least one, and
    positive non-increasing singular values. *)
Definition sve_ok (r : sve_result) : Prop :=
  fresh (su r) /\ fresh (sv r) /\
  gxmin (vgeom (su r)) = -1 /\ gxmax (vgeom (su r)) = 1 /\
  gxmin (vgeom (sv r)) = -1 /\ gxmax (vgeom (sv r)) = 1 /\
  List.length (vcols (su r)) = List.length (ss r) /\ List.length (vcols (sv r)) = List.length (ss r) /\
  ss r <> [] /\ Forall (fun x => 0 < x) (ss r) /\ nonincreasing (ss r).

(** Number of singular values that are at least e times the first. *)
Definition nabove (e : R) (s : list R) : nat :=
  List.length (filter (fun x => Rleb (e * nth 0 s 0) x) s).

(** The accuracy that applies: the argument, or else the one stored. *)
Definition eff_eps (eps stored : option R) : option R :=
  match eps with Some e => Some e | None => stored end.

(** The l-th singular value (0 beyond the end; used with l in range). *)
Definition sval (r : sve_result) (l : nat) : R := nth l (ss r) 0.

(** [b] was made by the constructor from a well-formed SVE and some kernel. *)
Definition built (compute : kern -> option R -> res sve_result) (b : basis) : Prop :=
  exists st beta wmax eps ms ker sve,
    basis_init compute st beta wmax eps ms ker sve = Ok b /\ sve_ok (bsve b) /\ 0 < wmax.

(** The l-th function of the set is f on the interval of the set. *)
Definition represents (p : vpoly) (l : nat) (f : R -> R) : Prop :=
  forall x, gxmin (vgeom p) <= x <= gxmax (vgeom p) -> value p (Z.of_nat l) x = Ok (f x).

(** [i] is a slice of the form [:stop]. *)
Definition prefix_slice (i : pyidx) (stop : option pynum) : Prop :=
  exists start step, i = IdxSlice start stop step /\
    (start = None \/ start = Some 0%Z) /\ (step = None \/ step = Some 1%Z).

(** Two bases for the same problem. *)
Definition same_setting (b b' : basis) : Prop :=
  bstat b' = bstat b /\ bbeta b' = bbeta b /\ bwmax b' = bwmax b /\ bkernel b' = bkernel b /\ bsve b' = bsve b.

(** [b'] consists of the first m functions and singular values of [b], in
    imaginary time, real frequency and Matsubara frequency. *)
Definition first_of (m : nat) (b b' : basis) : Prop :=
  bu b' = take m (bu b) /\ bs b' = firstn m (bs b) /\ bv b' = take m (bv b) /\
  forall ns, ft_call (buhat b') ns = (do M <- ft_call (buhat b) ns; Ok (firstn m M)).

(** Slicing again and again. *)
Fixpoint getitems (compute : kern -> option R -> res sve_result) (b : basis) (is : list pyidx) : res basis :=
  match is with [] => Ok b | i :: is => do b' <- basis_getitem compute b i; getitems compute b' is end.

(** Rescaling again and again. *)
Fixpoint rescales (compute : kern -> option R -> res sve_result) (b : basis) (betas : list R) : res basis :=
  match betas with [] => Ok b | t :: betas => do b' <- rescale compute b t; rescales compute b' betas end.

(** The function whose roots are the default sampling points for n points: the
    n-th function, or the derivative of the last one if there are too few. *)
Definition points_source (u : vpoly) (n : nat) (p : spoly) : Prop :=
  if (n <? List.length (vcols u))%nat then getitem u (Z.of_nat n) = Ok p
  else exists q, getitem u (-1) = Ok q /\ p = sderiv 1 q.

(** A declared parity of 0, 1 or -1, and no root at the midpoint if even. *)
Definition regular (p : spoly) : Prop :=
  (csym (scol p) = 0 \/ csym (scol p) = 1 \/ csym (scol p) = -1) /\
  (csym (scol p) = 1 -> scall p 0 <> Ok 0).

(** No root at the ends of [-1, 1]. *)
Definition nonzero_ends (p : spoly) : Prop := scall p (-1) <> Ok 0 /\ scall p 1 <> Ok 0.
