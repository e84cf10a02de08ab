(** C95: coefficients of singular functions computed in rounded arithmetic. *)
From Coq Require Import String ZArith Reals Lra.
From Coq Require Import List.
From Verif.Model Require Import Base Util Num IEEE Poly PolyIEEE Gauss SVE Kernel KernelIEEE GaussIEEE Compute SVEIEEE.
From Verif.Spec Require Import SGauss SPoly SCompute SKernelIEEE SGaussIEEE SPolyIEEE SSamplingIEEE SSVEIEEE.
From Verif.Proofs Require Import KernelRoundCall ComputeCase CoefRound CoefSegment CoefExact CoefFun.
Import ListNotations.
Open Scope R_scope.

(** numpy's recurrence for Legendre polynomials at a rounded node: the error grows
    with the square of the degree. *)
Theorem C95_legendre_values : forall u eta rd x z sg n k, rounding u eta rd -> 0 < u <= / 10000 -> 0 <= eta <= u / 1000 ->
  -1 <= z <= 1 -> 0 <= sg <= / 1000 -> Rabs (x - z) <= sg -> (k < n)%nat -> recurrence_error n u sg <= / 100 ->
  Rabs (fst (legvander_rd rd x k) - legP k z) <= recurrence_error n u sg.
Proof. intros u eta rd x z sg n k [H _] Hu He Hz Hs Hx. exact (vander_near u eta rd H Hu He x z sg Hz Hs Hx n k). Qed.
Print Assumptions C95_legendre_values.

(** The coefficients computed from a singular vector are close to the exact ones. *)
Theorem C95_coefficients : forall u eta e rw ro n q r sg om rho gam th dot segs G g vec,
  coefficient_setting u eta e rw ro n q r sg om rho gam th dot ->
  ordinary_edges segs -> piecewise q segs = Ok G -> piecewise_rd rw r segs = Ok g ->
  List.length vec = ((List.length segs - 1) * n)%nat ->
  forall k i, (k < n)%nat -> (i < List.length segs - 1)%nat ->
  Rabs (collocate_rd rw ro dot n r segs (sqrtw_rd rw g) vec k i - collocate n q segs (sqrtw G) vec k i)
  <= (2 * INR k + 1) * (coefficient_error n u sg om gam * part_norm n vec i + 5 * (eta + th)).
Proof. exact coefficients. Qed.
Print Assumptions C95_coefficients.

(** The function they stand for is close to the exact one on the whole segment. *)
Theorem C95_functions : forall u eta e rw ro n q r sg om rho gam th dot segs G g vec,
  coefficient_setting u eta e rw ro n q r sg om rho gam th dot ->
  ordinary_edges segs -> piecewise q segs = Ok G -> piecewise_rd rw r segs = Ok g ->
  List.length vec = ((List.length segs - 1) * n)%nat ->
  forall gm sa sb i x, gknots gm = segs -> glen gm = n -> (i < List.length segs - 1)%nat -> knot gm i <= x <= knot gm (S i) ->
  Rabs (seg_fun gm (Col (collocate_rd rw ro dot n r segs (sqrtw_rd rw g) vec) sa) i x -
        seg_fun gm (Col (collocate n q segs (sqrtw G) vec) sb) i x)
  <= function_error n (coefficient_error n u sg om gam) (5 * (eta + th)) (knot gm (S i) - knot gm i) vec i.
Proof. exact functions. Qed.
Print Assumptions C95_functions.

(** Calling the object made of the computed coefficients: both errors together. *)
Theorem C95_values : forall u eta e rw ro n q r sg om rho gam th dot segs G g vecs old p l i x,
  (forall l, coefficient_setting u eta e rw ro n q r sg om rho gam th (dot l)) ->
  ordinary_edges segs -> piecewise q segs = Ok G -> piecewise_rd rw r segs = Ok g ->
  Forall (fun v => List.length v = ((List.length segs - 1) * n)%nat) vecs ->
  poly_init_rd ro n (List.length segs - 1) (columns_rd rw ro dot n r segs (sqrtw_rd rw g) vecs) segs None = Ok p ->
  (l < List.length vecs)%nat -> in_segment (vgeom p) i x -> fair_length u eta (vgeom p) i -> loss (vgeom p) i * u <= 1 ->
  exists c y, nth_error (vcols p) l = Some c /\ value_rd old ro p (Z.of_nat l) x = Ok y /\
    Rabs (y - seg_fun (vgeom p) (Col (collocate n q segs (sqrtw G) (nth l vecs [])) 0) i x) <=
    call_error u eta (vgeom p) c i +
    function_error n (coefficient_error n u sg om gam) (5 * (eta + th)) (knot (vgeom p) (S i) - knot (vgeom p) i) (nth l vecs []) i.
Proof. exact values. Qed.
Print Assumptions C95_values.

(** Inner products summed in any order, with or without fused operations, qualify. *)
Theorem C95_any_order : forall u eta rd dot n, rounding u eta rd -> 0 <= u -> 0 <= eta -> INR n * u <= 1 / 2 ->
  (forall xs ys, List.length xs = List.length ys -> summed rd (map2 Rmult xs ys) (dot xs ys)) ->
  inner_near n (2 * INR n * u) (4 * INR n * eta) dot.
Proof. exact any_order. Qed.
Print Assumptions C95_any_order.

(** Without rounding the rounded computation is the one the other properties are
    about. *)
Theorem C95_exact_arithmetic : forall have_xprec have_gejsv dd old f legendre run argsort K eps cutoff n_sv n_gauss work st svd_strat,
  compute_rd have_xprec have_gejsv dd old (fun _ t => t) (fun t => t) (fun _ => f) (fun _ _ _ _ _ => exact_dot)
    legendre run argsort K eps cutoff n_sv n_gauss work st svd_strat =
  compute have_xprec have_gejsv dd f legendre run argsort K eps cutoff n_sv n_gauss work st svd_strat.
Proof. exact compute_exact. Qed.
Print Assumptions C95_exact_arithmetic.

(** Doubles, a rule of one point on two segments, and the vector (3/5, -4/5). *)
Example C95_nonvacuous : forall l : nat,
  coefficient_setting (/ 2 ^ 53) eta64 (/ 2 ^ 53) rnd64 rnd64 1 gauss1 gauss1 0 0 0 (2 * INR 1 * / 2 ^ 53) (4 * INR 1 * eta64)
    ((fun _ _ _ => chained_dot rnd64) l).
Proof. exact case_setting. Qed.
Example C95_nonvacuous_values :
  exists G g p, piecewise gauss1 [-1; 0; 1] = Ok G /\ piecewise_rd rnd64 gauss1 [-1; 0; 1] = Ok g /\
  poly_init_rd rnd64 1 2 (columns_rd rnd64 rnd64 (fun _ _ _ => chained_dot rnd64) 1 gauss1 [-1; 0; 1] (sqrtw_rd rnd64 g) [[3 / 5; - 4 / 5]]) [-1; 0; 1] None = Ok p /\
  in_segment (vgeom p) 1 (/ 2) /\ fair_length (/ 2 ^ 53) eta64 (vgeom p) 1 /\ loss (vgeom p) 1 * / 2 ^ 53 <= 1 /\
  seg_fun (vgeom p) (Col (collocate 1 gauss1 [-1; 0; 1] (sqrtw G) [3 / 5; - 4 / 5]) 0) 1 (/ 2) = - 4 / 5.
Proof. exact case_values. Qed.
