(** C89: quadrature rules and sampled kernel matrices in rounded arithmetic. *)
From Coq Require Import ZArith Reals Lra.
From Coq Require Import List.
From Verif.Model Require Import Base Util Num Gauss IEEE Kernel KernelIEEE GaussIEEE Compute.
From Verif.Spec Require Import SGauss SCompute SKernel SKernelIEEE SGaussIEEE.
From Verif.Proofs Require Import KernelRoundCall ComputeCase GaussRoundRule MatrixRound MatrixRoundMore.
Import ListNotations.
Open Scope R_scope.

(** Rule.piecewise: distances and weights keep their relative accuracy, however
    short the segments and however close a node lies to an end; nodes are
    accurate relative to the ends of their segment. *)
Theorem C89_piecewise : forall u eta e rd, small_errors u eta e -> rounding u eta rd ->
  forall n q r sg om rho segs G, ordinary_rule n q -> rule_near sg om rho r q ->
  0 <= sg <= / 1000 -> 0 <= om <= / 1000 -> 0 <= rho <= / 1000 ->
  ordinary_edges segs -> piecewise q segs = Ok G ->
  exists g, piecewise_rd rd r segs = Ok g /\ rule_near (sg + 7 * u) (om + 5 * u) (rho + 6 * u) g G /\
    forall i j, (i < List.length segs - 1)%nat -> (j < n)%nat ->
      Rabs (nth (i * n + j) (rx g) 0 - nth (i * n + j) (rx G) 0)
        <= (sg + 7 * u) * Rmax (Rabs (nth i segs 0)) (Rabs (nth (S i) segs 0)).
Proof. exact piecewise_round. Qed.
Print Assumptions C89_piecewise.

(** The segments decide whether an exception is raised, not the arithmetic. *)
Theorem C89_exceptions : forall rd r q segs ex, piecewise_rd rd r segs = Raise ex <-> piecewise q segs = Raise ex.
Proof. exact piecewise_raises. Qed.
Print Assumptions C89_exceptions.

(** Nodes are resolved if no segment has 0 in its interior, as is the case for
    the segments of the kernels. *)
Theorem C89_resolved : forall n q segs G d, ordinary_rule n q -> ordinary_edges segs -> piecewise q segs = Ok G ->
  chained (fun a b => 0 <= a \/ b <= 0) segs -> 0 < d ->
  (forall j, (j < n)%nat -> d <= 1 + nth j (rx q) 0 /\ d <= 1 - nth j (rx q) 0) -> resolved n segs G (2 / d).
Proof. exact resolved_away. Qed.
Print Assumptions C89_resolved.

Theorem C89_segments : forall segs, valid_segments segs -> chained (fun a b => 0 <= a \/ b <= 0) segs.
Proof. exact valid_away. Qed.
Print Assumptions C89_segments.

(** The matrix that is decomposed: every entry is accurate relative to the
    largest value in its column, whatever the cutoff. *)
Theorem C89_matrix : forall u eta e rd f, small_errors u eta e -> rounding u eta rd -> tfun_near e eta f ->
  forall n q r sg om rho kap sx sy GX GY k, ordinary_rule n q -> rule_near sg om rho r q -> small_reference u sg om rho ->
  ordinary_cutoff k -> ordinary_edges sx -> ordinary_edges sy ->
  piecewise q sx = Ok GX -> piecewise q sy = Ok GY -> resolved n sy GY kap -> kap * (sg + 7 * u) <= / 1000 ->
  forall M, nth 0 sx 0 = -1 -> nth (List.length sx - 1) sx 0 = 1 ->
  sampling_matrix_rd rd (kernel_matrix_rd rd f k) r sx sy = Ok M ->
  forall i j, (i < List.length (rx GX))%nat -> (j < List.length (rx GY))%nat ->
  Rabs (ment M i j - ment (weighted (kernel_formula k) GX GY) i j)
    <= (rho + 3 * om + 4 * (kap * (sg + 7 * u)) + 30 * u + 3 * e) * kernel_size k (nth j (rx GY) 0) *
       (sqrt (nth i (rw GX) 0) * sqrt (nth j (rw GY) 0)).
Proof. exact full_matrix. Qed.
Print Assumptions C89_matrix.

(** The even and odd matrices of a centrosymmetric kernel. *)
Theorem C89_reduced : forall u eta e rd f, small_errors u eta e -> rounding u eta rd -> tfun_near e eta f ->
  forall n q r sg om rho kap sx sy GX GY k, ordinary_rule n q -> rule_near sg om rho r q -> small_reference u sg om rho ->
  ordinary_cutoff k -> ordinary_edges sx -> ordinary_edges sy ->
  piecewise q sx = Ok GX -> piecewise q sy = Ok GY -> resolved n sy GY kap -> kap * (sg + 7 * u) <= / 1000 ->
  forall sgn red M, (sgn = 1 \/ sgn = -1) -> get_symmetrized k sgn = Ok red ->
  nth 0 sx 0 = 0 -> nth (List.length sx - 1) sx 0 = 1 ->
  sampling_matrix_rd rd (reduced_matrix_rd rd f red) r sx sy = Ok M ->
  forall i j, (i < List.length (rx GX))%nat -> (j < List.length (rx GY))%nat ->
  Rabs (ment M i j - ment (weighted (fun x y => kernel_formula k x y + sgn * kernel_formula k x (- y)) GX GY) i j)
    <= (2 * rho + 3 * sg + 5 * om + 7 * (kap * (sg + 7 * u)) + 85 * u + 5 * e) * kernel_size k (nth j (rx GY) 0) *
       (sqrt (nth i (rw GX) 0) * sqrt (nth j (rw GY) 0)).
Proof. exact reduced_round_matrix. Qed.
Print Assumptions C89_reduced.

(** The matrices are returned if the nodes keep clear of the ends of the domain
    by the error of the nodes. *)
Theorem C89_returns : forall u eta e rd f, small_errors u eta e -> rounding u eta rd ->
  forall n q r sg om rho sx sy GX GY, ordinary_rule n q -> rule_near sg om rho r q -> small_reference u sg om rho ->
  ordinary_edges sx -> ordinary_edges sy -> piecewise q sx = Ok GX -> piecewise q sy = Ok GY ->
  (forall k, Forall (fun x => -1 + (sg + 7 * u) <= x <= 1 - (sg + 7 * u)) (rx GX ++ rx GY) ->
     exists M, sampling_matrix_rd rd (kernel_matrix_rd rd f k) r sx sy = Ok M) /\
  (forall red, Forall (fun x => 0 + (sg + 7 * u) <= x <= 1 - (sg + 7 * u)) (rx GX ++ rx GY) ->
     exists M, sampling_matrix_rd rd (reduced_matrix_rd rd f red) r sx sy = Ok M).
Proof.
  exact (fun u eta e rd f Hs Hrd n q r sg om rho sx sy GX GY Hq Hr Hm Hx Hy HX HY =>
    conj (fun k => returns_matrix u eta e rd f Hs Hrd n q r sg om rho sx sy GX GY k Hq Hr Hm Hx Hy HX HY)
         (fun red => returns_reduced u eta e rd f Hs Hrd n q r sg om rho sx sy GX GY red Hq Hr Hm Hx Hy HX HY)).
Qed.
Print Assumptions C89_returns.

(** Exact arithmetic gives the rules and matrices of C15 - C22 and C43. *)
Theorem C89_exact_arithmetic : forall r segs f k red gx gy K eps sx sy,
  piecewise_rd (fun t => t) r segs = piecewise r segs /\
  kernel_matrix_rd (fun t => t) f k gx gy = kernel_matrix f k gx gy /\
  reduced_matrix_rd (fun t => t) f red gx gy = reduced_matrix f red gx gy /\
  (sk_segs_x K = Ok sx -> sk_segs_y K = Ok sy ->
     sampling_matrix_rd (fun t => t) (sk_matrix K) r sx sy = (do S <- sampling_init (fun _ => Ok r) K eps None; sampling_matrix S)).
Proof.
  exact (fun r segs f k red gx gy K eps sx sy => conj (piecewise_exact r segs) (conj (kernel_matrix_exact f k gx gy)
    (conj (reduced_matrix_exact f red gx gy) (sampling_exact K eps r sx sy)))).
Qed.
Print Assumptions C89_exact_arithmetic.

(** In doubles, with the one-point rule and two segments. *)
Example C89_nonvacuous : ordinary_rule 1 gauss1 /\ rule_near 0 0 0 gauss1 gauss1 /\ small_reference (/ 2 ^ 53) 0 0 0 /\
  small_errors (/ 2 ^ 53) eta64 (/ 2 ^ 53) /\ rounding (/ 2 ^ 53) eta64 rnd64 /\ tfun_near (/ 2 ^ 53) eta64 tfun64 /\
  ordinary_edges [-1; 0; 1] /\ ordinary_edges [0; / 2; 1] /\
  (exists G, piecewise gauss1 [-1; 0; 1] = Ok G /\ resolved 1 [-1; 0; 1] G 2 /\
     exists M, sampling_matrix_rd rnd64 (kernel_matrix_rd rnd64 tfun64 (Logistic 1000)) gauss1 [-1; 0; 1] [-1; 0; 1] = Ok M) /\
  (exists G, piecewise gauss1 [0; / 2; 1] = Ok G /\ resolved 1 [0; / 2; 1] G 2 /\
     exists k, get_symmetrized (RegBose 1000) (-1) = Ok k /\
     exists M, sampling_matrix_rd rnd64 (reduced_matrix_rd rnd64 tfun64 k) gauss1 [0; / 2; 1] [0; / 2; 1] = Ok M) /\
  2 * (0 + 7 * / 2 ^ 53) <= / 1000.
Proof. exact matrix_example. Qed.
