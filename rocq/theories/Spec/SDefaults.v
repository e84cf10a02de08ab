(** Specification vocabulary for default sampling frequencies. *)
From Coq Require Import String ZArith Reals.
From Coquelicot Require Import Coquelicot.
From Coq Require Import List Sorting.Sorted.
From Verif.Model Require Import Base Num Roots Matsubara Poly FT SVE Basis Augment NDArray Sampling Defaults.
From Verif.Spec Require Import SRoots SPoly SFT SSVE SBasis SSampling.
Import ListNotations.
Open Scope R_scope.

(** The value at the frequency n of the transform of function l. *)
Definition hat (F : ft) (l : nat) (n : Z) : C := at_point (RtoC 0) (ft_call F) n l.

(** Complex numbers whose directions differ by more than a right angle; for
    numbers on one line through zero: on opposite sides of zero. *)
Definition opposite (v w : C) : Prop := Re (Cmult v (Cconj w)) < 0.

(** One of two values vanishes, or they lie on opposite sides of zero. *)
Definition crosses (v w : C) : Prop := v = RtoC 0 \/ w = RtoC 0 \/ opposite v w.

(** Left function l of the expansion is even for even l and odd for odd l, and
    marked as such.  (For a centrosymmetric kernel each function is even or odd
    and marked as such by C73, and they alternate if the kernel is totally
    positive.) *)
Definition definite (r : sve_result) (l : nat) : Prop :=
  forall c, nth_error (vcols (su r)) l = Some c -> csym c = (-1) ^ l /\ has_parity (vgeom (su r)) c ((-1) ^ l).

(** Left function l of the expansion is not marked as even or odd. *)
Definition unmarked (r : sve_result) (l : nat) : Prop :=
  exists c, nth_error (vcols (su r)) l = Some c /\ csym c = 0.

(** The kind of frequencies of a basis: even for bosons, odd for fermions. *)
Definition stat_freq (b : basis) : freq := if string_dec (bstat b) "F" then Odd else Even.

(** The reduced frequency number x. *)
Definition nu (b : basis) (x : Z) : Z := (2 * x + zeta (stat_freq b))%Z.

(** The highest function of the expansion. *)
Definition highest (b : basis) : nat := List.length (ss (bsve b)) - 1.

(** The values lie on the real or the imaginary axis; g are their coordinates. *)
Definition on_axis (b : basis) (l : nat) (g : Z -> R) : Prop :=
  exists e, (e = RtoC 1 \/ e = Ci) /\ forall x, hat (buhat_full b) l (nu b x) = Cmult e (RtoC (g x)).

(** A list as a one-dimensional array. *)
Definition as_array (l : list R) : nd R := Nd [List.length l] (fun idx => nth (nth 0 idx 0%nat) l 0).

(** The conditions under which n default sampling times can be found (C50). *)
Definition tau_points_exist (b : basis) (n : nat) : Prop :=
  exists p, points_source (su (bsve b)) n p /\ regular p /\
    ((List.length (vcols (su (bsve b))) <= n)%nat -> nonzero_ends p).

(** Sampling times: increasing and inside [0, beta]. *)
Definition good_times (beta : R) (pts : list R) : Prop :=
  StronglySorted Rlt pts /\ Forall (fun t => 0 <= t <= beta) pts.

(** A frequency allowed for a basis: even for bosons, odd for fermions. *)
Definition allowed (b : basis) (n : Z) : Prop := (n mod 2 = zeta (stat_freq b))%Z.
