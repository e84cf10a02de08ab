(** Specification vocabulary for the discrete Lehmann representation in rounded arithmetic. *)
From Coq Require Import Reals ZArith.
From Coquelicot Require Import Coquelicot.
From Coq Require Import List.
From Verif.Model Require Import Base Num Poly FT SVE Basis NDArray Sampling DLR.
From Verif.Spec Require Import SSampling SDLR SKernelIEEE.
Open Scope R_scope.

(** Rounding is monotone and does not change the numbers that keep 2 tau/beta - 1 and
    w/wmax between -1 and 1; true of doubles if beta is one (C105_doubles). *)
Definition keeps_interval (rd : R -> R) (beta : R) : Prop :=
  (forall a b, a <= b -> rd a <= rd b) /\ rd 1 = 1 /\ rd (-1) = -1 /\ rd 2 = 2 /\ rd (2 * beta) = 2 * beta.

(** The function np.tanh has relative error e. *)
Definition tanh_near (e eta : R) (th : R -> R) : Prop := forall x, approximates e eta (th x) (tanh x).

(** The distance of the frequency from the pole, |i pi n/beta - w|. *)
Definition pole_distance (beta w : R) (n : Z) : R := Cmod (Cminus (0, PI * IZR n / beta) (RtoC w)).

(** Underflow is negligible at this temperature and distance. *)
Definition fair_pole (u eta beta w : R) (n : Z) : Prop :=
  2000 * eta <= u /\ 2000 * eta <= u * beta /\ 2000 * eta * beta <= u /\ 3000 * eta <= u * pole_distance beta w n.

(** The expansion with coefficients x in the basis functions is close to the expansion
    with coefficients g in the poles, at a time t where the functions have the values U:
    up to E (the truncation error of the kernel at the poles), eps (the error of the
    matrix F) and the error of the product. *)
Definition time_close (b : basis) (poles : list R) (F : mat) (gam th : R) (g x : nat -> C) : Prop :=
  forall s (U : nat -> R) (W : nat -> R -> R) E eps t,
  (forall w, In w poles -> Rabs (exp (- t * w) / (1 + exp (- bbeta b * w)) - sumn (List.length (bs b)) (fun l => s l * U l * W l w)) <= E) ->
  (forall l p, (l < List.length (bs b))%nat -> (p < List.length poles)%nat -> Cmod (Cminus (me F l p) (RtoC (- (s l * W l (nth p poles 0))))) <= eps) ->
  Cmod (Cminus (csumn (List.length (bs b)) (fun l => Cmult (RtoC (U l)) (x l)))
               (csumn (List.length poles) (fun p => Cmult (RtoC (pole_fun (bbeta b) (nth p poles 0) t)) (g p)))) <=
  E * sumn (List.length poles) (fun p => Cmod (g p)) +
  sumn (List.length (bs b)) (fun l => Rabs (U l) * (eps * sumn (List.length poles) (fun p => Cmod (g p)) + gam * sumn (List.length poles) (fun p => Cmod (me F l p) * Cmod (g p)) + th)).
