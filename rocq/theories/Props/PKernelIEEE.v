(** C88: kernel values in rounded arithmetic. *)
From Coq Require Import ZArith Reals Lra.
From Coq Require Import List.
From Verif.Model Require Import Base Util Num Gauss IEEE Kernel KernelIEEE.
From Verif.Spec Require Import SKernel SKernelIEEE.
From Verif.Proofs Require Import KernelRound KernelRoundOdd KernelRoundCall.
Import ListNotations.
Open Scope R_scope.

(** The values lie between 0 and kernel_size, so that the bounds below are
    relative to the largest value the kernel can take at this y. *)
Theorem C88_size : forall k x y, ordinary_cutoff k -> -1 <= x <= 1 -> 0 <= kernel_formula k x y <= kernel_size k y.
Proof. exact formula_bound. Qed.
Print Assumptions C88_size.

(** K(x, y) without distances: a few units in the last place, whatever the cutoff. *)
Theorem C88_points : forall u eta e rd f, small_errors u eta e -> rounding u eta rd -> tfun_near e eta f ->
  forall k xs ys M, ordinary_cutoff k ->
  kernel_call_rd rd f k (map Fin xs) (map Fin ys) None None = Ok M ->
  forall i j, (i < List.length xs)%nat -> (j < List.length ys)%nat ->
  Rabs (nth j (nth i M []) 0 - kernel_formula k (nth i xs 0) (nth j ys 0)) <= (9 * u + 3 * e) * kernel_size k (nth j ys 0).
Proof. exact points_round. Qed.
Print Assumptions C88_points.

(** K(x, y, x_plus, x_minus): only the relative accuracy of the distances
    matters.  The points X themselves need not be representable. *)
Theorem C88_distances : forall u eta e rd f, small_errors u eta e -> rounding u eta rd -> tfun_near e eta f ->
  forall k rho xs ys X xp xm M, ordinary_cutoff k -> 0 <= rho <= / 1000 ->
  kernel_call_rd rd f k (map Fin xs) (map Fin ys) (Some xp) (Some xm) = Ok M ->
  (forall i, (i < List.length xs)%nat -> -1 <= X i <= 1 /\ distances rho eta (-1) (X i) (nth i xp 0) (nth i xm 0)) ->
  forall i j, (i < List.length xs)%nat -> (j < List.length ys)%nat ->
  Rabs (nth j (nth i M []) 0 - kernel_formula k (X i) (nth j ys 0)) <= (rho + 8 * u + 3 * e) * kernel_size k (nth j ys 0).
Proof. exact call_round. Qed.
Print Assumptions C88_distances.

(** Even and odd kernels: K(x, y) + K(x, -y) and K(x, y) - K(x, -y). *)
Theorem C88_reduced : forall u eta e rd f, small_errors u eta e -> rounding u eta rd -> tfun_near e eta f ->
  forall k sgn r rho sg xs ys X xp xm M, (sgn = 1 \/ sgn = -1) -> get_symmetrized k sgn = Ok r ->
  ordinary_cutoff k -> 0 <= rho <= / 2000 -> sg <= / 10000 ->
  reduced_call_rd rd f r (map Fin xs) (map Fin ys) (Some xp) (Some xm) = Ok M ->
  (forall i, (i < List.length xs)%nat ->
     0 <= X i <= 1 /\ Rabs (nth i xs 0 - X i) <= sg /\ distances rho eta 0 (X i) (nth i xp 0) (nth i xm 0)) ->
  forall i j, (i < List.length xs)%nat -> (j < List.length ys)%nat ->
  Rabs (nth j (nth i M []) 0 - (kernel_formula k (X i) (nth j ys 0) + sgn * kernel_formula k (X i) (- nth j ys 0)))
    <= (2 * rho + 3 * sg + 20 * u + 5 * e) * kernel_size k (nth j ys 0).
Proof. exact reduced_call_round. Qed.
Print Assumptions C88_reduced.

(** The hypotheses hold for IEEE double precision, for any accuracy of the
    elementary functions below 1e-3. *)
Theorem C88_doubles : rounding (/ 2 ^ 53) eta64 rnd64 /\
  (forall e, 0 <= e <= / 1000 -> small_errors (/ 2 ^ 53) eta64 e) /\
  exists f, tfun_near (/ 2 ^ 53) eta64 f.
Proof. exact (conj rounding_double (conj small_double (ex_intro _ tfun64 tfun64_near))). Qed.
Print Assumptions C88_doubles.

(** In doubles, with elementary functions accurate to one unit in the last
    place, values of the logistic kernel have an absolute error below 2^-49. *)
Theorem C88_logistic_doubles : forall f lam x y r, tfun_near (/ 2 ^ 52) eta64 f -> 0 <= lam <= 10 ^ 90 ->
  kernel_call_rd rnd64 f (Logistic lam) [Fin x] [Fin y] None None = Ok [[r]] ->
  Rabs (r - logistic_formula lam x y) <= / 2 ^ 49.
Proof. exact logistic_doubles. Qed.
Print Assumptions C88_logistic_doubles.

(** Exceptions do not depend on the arithmetic, and exact arithmetic gives the
    kernels of C33 - C38. *)
Theorem C88_exceptions : forall rd f k r x y xp xm ex,
  (kernel_call_rd rd f k x y xp xm = Raise ex <-> kernel_call f k x y xp xm = Raise ex) /\
  (reduced_call_rd rd f r x y xp xm = Raise ex <-> reduced_call f r x y xp xm = Raise ex).
Proof. exact (fun rd f k r x y xp xm ex => conj (call_rd_raises rd f k x y xp xm ex) (reduced_call_rd_raises rd f r x y xp xm ex)). Qed.
Print Assumptions C88_exceptions.

Theorem C88_exact_arithmetic : forall f k r x y xp xm,
  kernel_call_rd (fun t => t) f k x y xp xm = kernel_call f k x y xp xm /\
  reduced_call_rd (fun t => t) f r x y xp xm = reduced_call f r x y xp xm.
Proof. exact (fun f k r x y xp xm => conj (call_rd_exact f k x y xp xm) (reduced_call_rd_exact f r x y xp xm)). Qed.
Print Assumptions C88_exact_arithmetic.

(** The call returns values for every point of the domain, here x = 1/4, y = -1/2. *)
Example C88_nonvacuous : ordinary_cutoff (Logistic 1000) /\ ordinary_cutoff (RegBose 1000) /\
  (exists r, kernel_call_rd rnd64 tfun64 (Logistic 1000) [Fin (/ 4)] [Fin (- / 2)] None None = Ok [[r]]) /\
  (exists r, kernel_call_rd rnd64 tfun64 (RegBose 1000) [Fin (/ 4)] [Fin (- / 2)] (Some [5 / 4]) (Some [3 / 4]) = Ok [[r]]) /\
  distances 0 eta64 (-1) (/ 4) (5 / 4) (3 / 4) /\
  (exists k, get_symmetrized (RegBose 1000) (-1) = Ok k /\
     exists r, reduced_call_rd rnd64 tfun64 k [Fin (/ 4)] [Fin (/ 2)] (Some [/ 4]) (Some [3 / 4]) = Ok [[r]]) /\
  distances 0 eta64 0 (/ 4) (/ 4) (3 / 4).
Proof. exact round_example. Qed.
