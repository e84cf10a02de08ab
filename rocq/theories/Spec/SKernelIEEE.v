(** Specification vocabulary for kernels in rounded arithmetic. *)
From Coq Require Import Reals.
From Verif.Model Require Import Base Kernel.
From Verif.Spec Require SKernel.
Open Scope R_scope.

(** Rounding with relative error [u] and, through gradual underflow, an absolute
    error [eta]; rounding does not change signs. *)
Definition rounding (u eta : R) (rd : R -> R) : Prop :=
  (forall x, Rabs (rd x - x) <= u * Rabs x + eta) /\
  (forall x, 0 <= x -> 0 <= rd x) /\ (forall x, x <= 0 -> rd x <= 0).

(** [a'] agrees with [a] up to relative error [e] and absolute error [eta]. *)
Definition approximates (e eta a' a : R) : Prop := Rabs (a' - a) <= e * Rabs a + eta.

(** The elementary functions have relative error [e] (and underflow gradually)
    where [tfun_ok] asks for exact values. *)
Definition tfun_near (e eta : R) (f : tfun) : Prop :=
  (forall x, x <= 0 -> approximates e eta (f_exp f x) (exp x)) /\
  (forall x, x <= - / 10 ^ 201 -> approximates e eta (f_expm1 f x) (exp x - 1)) /\
  (forall x, 0 <= x < 85 -> approximates e eta (f_sinh f x) (sinh x)) /\
  (forall x, 0 <= x < 85 -> approximates e eta (f_cosh f x) (cosh x)).

(** The errors are small, and underflow is negligible even multiplied by the
    cutoff; for doubles u = 2^-53 and eta = 2^-1075. *)
Definition small_errors (u eta e : R) : Prop :=
  / 10 ^ 90 <= u <= / 10000 /\ 0 <= e <= / 1000 /\ 0 <= eta /\ eta * 10 ^ 300 <= u.

(** The kernels as mathematical functions, continued to y = 0. *)
Definition kernel_formula (k : kernel) (x y : R) : R :=
  match k with
  | Logistic lam => SKernel.logistic_formula lam x y
  | RegBose lam => if Req_EM_T y 0 then / lam else SKernel.bose_formula lam x y
  end.

(** A bound for |K(x, y)| over all x (theorem C88_size). *)
Definition kernel_size (k : kernel) (y : R) : R :=
  match k with Logistic _ => 1 | RegBose lam => / lam + Rabs y end.

(** Cutoffs whose products do not overflow. *)
Definition ordinary_cutoff (k : kernel) : Prop :=
  match k with Logistic lam => 0 <= lam <= 10 ^ 90 | RegBose lam => 0 < lam <= 10 ^ 90 end.

(** [x_plus] and [x_minus] are the distances of the point X from the ends of
    [a, 1] up to a relative error [rho]; rounding of tiny numbers adds a few
    times [eta]. *)
Definition distances (rho eta a X x_plus x_minus : R) : Prop :=
  0 <= x_plus /\ 0 <= x_minus /\
  Rabs (x_plus - (X - a)) <= rho * (X - a) + 10 * eta /\ Rabs (x_minus - (1 - X)) <= rho * (1 - X) + 10 * eta.
