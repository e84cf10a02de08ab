(** Specification vocabulary for functions given in imaginary time and in
    Matsubara frequency. *)
From Coq Require Import ZArith Reals.
From Coquelicot Require Import Coquelicot.
From Coq Require Import List.
From Verif.Model Require Import Base Num FT NDArray Sampling.
From Verif.Spec Require Import SUtil SSampling.
Import ListNotations.
Open Scope R_scope.

(** v is the integral of exp(i phase(x)) G(x) over [a, b], for complex G. *)
Definition is_fourier_c (phase : R -> R) (G : R -> C) (a b : R) (v : C) : Prop :=
  is_RInt (fun x => Re (Cmult (cos (phase x), sin (phase x)) (G x))) a b (Re v) /\
  is_RInt (fun x => Im (Cmult (cos (phase x), sin (phase x)) (G x))) a b (Im v).

(** v is the value at the reduced frequency n of the function G of imaginary
    time: the integral of exp(i pi n tau/beta) G(tau) over [0, beta]. *)
Definition in_frequency (beta : R) (G : R -> C) (n : Z) (v : C) : Prop :=
  is_fourier_c (fun t => PI * IZR n * t / beta) G 0 beta v.

(** u can be evaluated on [0, beta] and uhat at the frequency n, and there each of
    the L functions uhat_l is the function u_l. *)
Definition transforms (beta : R) (b : sbasis) (L : nat) (n : Z) : Prop :=
  (forall t, 0 <= t <= beta -> is_ok (sb_u b [t])) /\ is_ok (sb_uhat b [n]) /\
  forall l, (l < L)%nat ->
    in_frequency beta (fun t => at_point (RtoC 0) (sb_u b) t l) n (at_point (RtoC 0) (sb_uhat b) n l).

(** An array of functions of imaginary time is given by an array g of
    coefficients in the L functions u_l, lying along axis a.  x holds, along that
    axis, the values of those functions at the times pts. *)
Definition time_values (b : sbasis) (L a : nat) (pts : list R) (g x : nd C) : Prop :=
  shp x = set_nth a (length pts) (shp g) /\
  forall idx, valid_index (shp x) idx ->
    elt x idx = expansion_at (sb_u b) L (nth (nth a idx 0%nat) pts 0) (fun l => elt g (set_nth a l idx)).

(** x holds, along axis a, the values of those functions at the frequencies ns.
    Only the functions of imaginary time enter here. *)
Definition frequency_values (beta : R) (b : sbasis) (L a : nat) (ns : list Z) (g x : nd C) : Prop :=
  shp x = set_nth a (length ns) (shp g) /\
  forall idx, valid_index (shp x) idx ->
    in_frequency beta (fun t => expansion_at (sb_u b) L t (fun l => elt g (set_nth a l idx)))
                 (nth (nth a idx 0%nat) ns 0%Z) (elt x idx).
