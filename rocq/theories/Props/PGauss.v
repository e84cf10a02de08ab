(** C15-C20, C22: quadrature rules. *)
From Coquelicot Require Import Coquelicot.
From Coq Require Import List Reals Arith Bool Lia Lra Sorting.
From Verif.Model Require Import Base Num Gauss Kronrod.
From Verif.Spec Require Import SGauss.
From Verif.Proofs Require Import SumFacts IntFacts LegFacts PolyFacts GaussFacts GaussExact GaussExamples KronrodFacts LegRoots NewtonExact.
Import ListNotations.
Open Scope R_scope.

(** C15: distances. *)
Theorem C15_distances_kept :
  (forall x w a b, distances_ok (rule_init x w None None a b)) /\
  (forall r a b, ra r <> rb r -> distances_ok r -> distances_ok (reseat r a b)) /\
  (forall r c, distances_ok r -> distances_ok (scale r c)) /\
  (forall rs r, Forall distances_ok rs -> join rs = Ok r -> distances_ok r) /\
  (forall r edges q, ra r <> rb r -> distances_ok r -> piecewise r edges = Ok q -> distances_ok q).
Proof. exact all_distances. Qed.
Print Assumptions C15_distances_kept.

(** C15: order and range of the nodes, on open and on closed intervals, and the
    resulting interval. *)
Theorem C15_nodes_ordered_inside :
  (forall r a b, ra r < rb r -> a < b -> placed r -> placed (reseat r a b)) /\
  (forall r c, placed r -> placed (scale r c)) /\
  (forall rs r, rs <> [] -> Forall (fun r => ra r <= rb r) rs -> Forall placed rs -> join rs = Ok r -> placed r) /\
  (forall r edges q, (2 <= length edges)%nat -> ra r < rb r -> placed r -> piecewise r edges = Ok q -> placed q).
Proof. exact all_placed. Qed.
Print Assumptions C15_nodes_ordered_inside.

Theorem C15_nodes_ordered_inside_closed :
  (forall r a b, ra r < rb r -> a <= b -> placed_closed r -> placed_closed (reseat r a b)) /\
  (forall r c, placed_closed r -> placed_closed (scale r c)) /\
  (forall rs r, rs <> [] -> Forall (fun r => ra r <= rb r) rs -> Forall placed_closed rs -> join rs = Ok r -> placed_closed r) /\
  (forall r edges q, (2 <= length edges)%nat -> ra r < rb r -> placed_closed r -> piecewise r edges = Ok q -> placed_closed q).
Proof. exact all_placed_closed. Qed.
Print Assumptions C15_nodes_ordered_inside_closed.

Theorem C15_new_interval :
  (forall r a b, ra (reseat r a b) = a /\ rb (reseat r a b) = b) /\
  (forall r c, ra (scale r c) = ra r /\ rb (scale r c) = rb r) /\
  (forall rs r, rs <> [] -> join rs = Ok r ->
     exists first rest, rs = first :: rest /\ ra r = ra first /\ rb r = rb (last rs first)) /\
  (forall r edges q d, (2 <= length edges)%nat -> piecewise r edges = Ok q ->
     ra q = hd d edges /\ rb q = last edges d).
Proof. exact all_intervals. Qed.
Print Assumptions C15_new_interval.

(** C15: sums of weights. *)
Theorem C15_weight_sums :
  (forall r a b, rsum (rw (reseat r a b)) = rsum (rw r) * ((b - a) / (rb r - ra r))) /\
  (forall r c, rsum (rw (scale r c)) = rsum (rw r) * c) /\
  (forall rs r, join rs = Ok r -> rsum (rw r) = rsum (map (fun s => rsum (rw s)) rs)) /\
  (forall r edges q d, ra r <> rb r -> piecewise r edges = Ok q ->
     rsum (rw q) = rsum (rw r) * ((last edges d - hd d edges) / (rb r - ra r))).
Proof. exact all_sums. Qed.
Print Assumptions C15_weight_sums.

(** C15: the embedded rule of a nested rule is transformed like the full one. *)
Theorem C15_nested_rule_follows :
  (forall r a b, rsum (nv (nreseat r a b)) = rsum (nv r) * ((b - a) / (rb (nr r) - ra (nr r))) /\
                 nr (nreseat r a b) = reseat (nr r) a b) /\
  (forall r c, rsum (nv (nscale r c)) = rsum (nv r) * c /\ nr (nscale r c) = scale (nr r) c) /\
  (forall d r a b, ra (nr r) <> rb (nr r) ->
     exact_to d (vsel (rx (nr r))) (nv r) (ra (nr r)) (rb (nr r)) ->
     exact_to d (vsel (rx (nr (nreseat r a b)))) (nv (nreseat r a b)) a b).
Proof. exact nested_all. Qed.
Print Assumptions C15_nested_rule_follows.

(** The 2-point Gauss rule meets every hypothesis above. *)
Example C15_two_point_rule :
  distances_ok gauss2 /\ placed gauss2 /\ ra gauss2 < rb gauss2 /\
  exists q, piecewise gauss2 [0; 1; 3] = Ok q /\ length (rx q) = 4%nat /\
            distances_ok q /\ placed q /\ ra q = 0 /\ rb q = 3 /\ rsum (rw q) = 3.
Proof. exact gauss2_piecewise. Qed.

(** C16 *)
Theorem C16_reseat_keeps_exactness :
  forall d r a b, ra r <> rb r ->
    exact_to d (rx r) (rw r) (ra r) (rb r) ->
    exact_to d (rx (reseat r a b)) (rw (reseat r a b)) a b.
Proof. exact reseat_exact. Qed.
Print Assumptions C16_reseat_keeps_exactness.

Theorem C16_piecewise_exact_on_piecewise_polynomials :
  forall d r edges q f e,
    (2 <= length edges)%nat -> ra r < rb r -> length (rx r) = length (rw r) ->
    Forall (fun x => ra r < x < rb r) (rx r) ->
    exact_to d (rx r) (rw r) (ra r) (rb r) -> piecewise r edges = Ok q ->
    piecewise_polynomial d edges f ->
    is_RInt f (hd e edges) (last edges e) (quad (rx q) (rw q) f).
Proof. exact piecewise_exact. Qed.
Print Assumptions C16_piecewise_exact_on_piecewise_polynomials.

(** The 2-point rule is exact to degree 3 and integrates |x| piecewise. *)
Example C16_absolute_value :
  exact_to 3 (rx gauss2) (rw gauss2) (-1) 1 /\
  exists q, piecewise gauss2 [-1; 0; 1] = Ok q /\ quad (rx q) (rw q) Rabs = 1.
Proof. exact gauss2_abs. Qed.

(** C17 *)
Theorem C17_piecewise_rejects_exactly_unordered :
  forall r edges,
    (chained Rlt edges -> exists q, piecewise r edges = Ok q) /\
    (~ chained Rlt edges -> piecewise r edges = Raise ValueError).
Proof. exact piecewise_raises. Qed.
Print Assumptions C17_piecewise_rejects_exactly_unordered.

Theorem C17_join_rejects_exactly_gaps :
  forall rs,
    (chained abut rs -> exists q, join rs = Ok q) /\
    (~ chained abut rs -> join rs = Raise ValueError).
Proof. exact join_raises. Qed.
Print Assumptions C17_join_rejects_exactly_gaps.

Theorem C17_join_of_nothing :
  join [] = Ok (Rule [] [] [] [] (-1) 1) /\
  forall r edges, (length edges < 2)%nat -> piecewise r edges = Ok (Rule [] [] [] [] (-1) 1).
Proof. exact join_nothing. Qed.
Print Assumptions C17_join_of_nothing.

Example C17_repeated_edge_rejected : forall r, piecewise r [0; 1; 1; 2] = Raise ValueError.
Proof.
  intros r. apply C17_piecewise_rejects_exactly_unordered. intros (_ & H & _). lra.
Qed.
Example C17_gap_rejected : join [reseat gauss2 0 1; reseat gauss2 2 3] = Raise ValueError.
Proof.
  apply C17_join_rejects_exactly_gaps. intros [H _]. unfold abut in H. simpl in H. lra.
Qed.

(** C18 *)
Theorem C18_value_and_derivative :
  forall alpha beta Q n x,
    recurrence_family alpha beta Q -> (1 <= n)%nat ->
    exists p dp p0 dp0, polyvalderiv n alpha beta x = Ok (p, dp, p0, dp0) /\
      p = Q n x /\ is_derive (Q n) x dp /\ p0 = Q (n - 1)%nat x /\ is_derive (Q (n - 1)%nat) x dp0.
Proof. exact polyvalderiv_ok. Qed.
Print Assumptions C18_value_and_derivative.

Theorem C18_polynomials_are_monic :
  forall alpha beta Q, recurrence_family alpha beta Q ->
    forall n, exists r, polylt n r /\ forall x, Q n x = x ^ n + r x.
Proof. exact family_monic. Qed.
Print Assumptions C18_polynomials_are_monic.

(** Every pair of coefficient sequences has such a family; without
    coefficients the evaluation raises. *)
Example C18_family_exists : forall alpha beta, exists Q, recurrence_family alpha beta Q.
Proof. intros. exists (family alpha beta). apply family_ok. Qed.
Example C18_no_coefficients : forall alpha beta x, polyvalderiv 0 alpha beta x = Raise IndexError.
Proof. reflexivity. Qed.

(** C19: weights of any rule returned (any recurrence, any rounding in the
    Newton iteration, any evaluation) sum to b - a. *)
Theorem C19_weights_sum_to_length :
  forall n beta a b eig corr sub pvd r,
    rule_from_recurrence n beta a b eig corr sub pvd = Ok r ->
    rsum (map (fun t => let '(_, dp1, p0, _) := pvd t in 1 / (dp1 * p0)) (rx r)) <> 0 ->
    rsum (rw r) = b - a /\ length (rw r) = length (rx r) /\ distances_ok r /\ ra r = a /\ rb r = b.
Proof. exact rule_weights_sum. Qed.
Print Assumptions C19_weights_sum_to_length.

(** C19: if the nodes are the n distinct zeros of the n-th polynomial of the
    Legendre recurrence, the rule is exact to degree 2n - 1 with positive
    weights that sum to 2. *)
Theorem C19_gauss_legendre_exact :
  forall n Q eig corr sub r,
    recurrence_family legendre_alpha legendre_beta Q ->
    legendre_rule n eig corr sub (polyvalderiv_loop (n - 1) legendre_alpha legendre_beta) = Ok r ->
    NoDup (rx r) -> length (rx r) = n -> (forall t, In t (rx r) -> Q n t = 0) ->
    exact_to (2 * n - 1) (rx r) (rw r) (-1) 1 /\
    Forall (fun w => 0 < w) (rw r) /\ rsum (rw r) = 2 /\ ra r = -1 /\ rb r = 1.
Proof. exact legendre_rule_gauss. Qed.
Print Assumptions C19_gauss_legendre_exact.

(** The polynomials of that recurrence are the Legendre polynomials up to a
    positive factor. *)
Theorem C19_recurrence_is_legendre :
  forall Q, recurrence_family legendre_alpha legendre_beta Q ->
    forall n, exists kappa, 0 < kappa /\ forall x, legP n x = kappa * Q n x.
Proof. exact legendre_family_P. Qed.
Print Assumptions C19_recurrence_is_legendre.

(** C19: for every n >= 1 these hypotheses can be met: the n-th Legendre
    polynomial has n distinct zeros, all inside (-1, 1); with the weights of the
    code's formula they make a rule exact to degree 2n - 1 with positive weights,
    and it is the only such rule with n nodes. *)
Theorem C19_gauss_rule_exists_and_is_unique :
  forall n, (1 <= n)%nat -> exists r,
    length (rx r) = n /\ placed r /\ ra r = -1 /\ rb r = 1 /\ length (rw r) = n /\ Forall (fun w => 0 < w) (rw r) /\
    exact_to (2 * n - 1) (rx r) (rw r) (-1) 1 /\
    (forall t, legP n t = 0 <-> In t (rx r)) /\
    rw r = gauss_weights (polyvalderiv_loop (n - 1) legendre_alpha legendre_beta) 2 (rx r) /\
    forall r', length (rx r') = n -> length (rw r') = n -> placed r' -> ra r' = -1 -> rb r' = 1 ->
      Forall (fun w => 0 < w) (rw r') -> exact_to (2 * n - 1) (rx r') (rw r') (-1) 1 ->
      rx r' = rx r /\ rw r' = rw r.
Proof. exact gauss_statement. Qed.
Print Assumptions C19_gauss_rule_exists_and_is_unique.

(** For every order some run of the code ends with such nodes. *)
Example C19_every_order :
  forall n, (0 < n)%nat -> exists eig corr sub r,
    legendre_rule n eig corr sub (polyvalderiv_loop (n - 1) legendre_alpha legendre_beta) = Ok r /\
    NoDup (rx r) /\ length (rx r) = n /\
    forall Q, recurrence_family legendre_alpha legendre_beta Q -> forall t, In t (rx r) -> Q n t = 0.
Proof. exact run_exists. Qed.

(** A two-point run whose second Newton step fails to halve returns nodes
    +-1/sqrt 3 and meets the hypotheses. *)
Example C19_two_points :
  exists eig corr sub r,
    legendre_rule 2 eig corr sub (polyvalderiv_loop 1 legendre_alpha legendre_beta) = Ok r /\
    NoDup (rx r) /\ length (rx r) = 2%nat /\
    (forall t, In t (rx r) -> family legendre_alpha legendre_beta 2 t = 0).
Proof. exact gauss2_run. Qed.

(** C20: exact characterisation for every arithmetic ([corr] are the computed
    corrections, [sub] the computed subtraction; d k is the largest correction
    of step k). *)
Theorem C20_rule_iff_some_step_fails_to_halve :
  forall n beta a b eig corr sub pvd d,
    (1 <= n)%nat -> 0 <= b - a -> (forall k, (1 <= k < n)%nat -> 0 <= beta k) ->
    (forall k, (k < 5)%nat -> largest (corr (newton_points corr sub k eig)) (d k)) ->
    ((exists r, rule_from_recurrence n beta a b eig corr sub pvd = Ok r) <->
     exists k, (k < 5)%nat /\ match k with O => 1 | S j => d j end < 2 * d k) /\
    ((exists r, rule_from_recurrence n beta a b eig corr sub pvd = Ok r) \/
     rule_from_recurrence n beta a b eig corr sub pvd = Raise AttributeError).
Proof. exact rule_ok_iff. Qed.
Print Assumptions C20_rule_iff_some_step_fails_to_halve.

Theorem C20_exact_start_fails :
  forall n beta a b eig corr sub pvd,
    (1 <= n)%nat -> 0 <= b - a -> (forall k, (1 <= k < n)%nat -> 0 <= beta k) ->
    eig <> [] -> length (corr eig) = length eig -> Forall (fun c => c = 0) (corr eig) ->
    (forall t, In t eig -> sub t 0 = t) ->
    rule_from_recurrence n beta a b eig corr sub pvd = Raise AttributeError.
Proof. exact exact_start_fails. Qed.
Print Assumptions C20_exact_start_fails.

(** In exact arithmetic the Newton steps converge from every start close enough to
    the zeros, and then legendre(n) raises: it returns through rounding only. *)
Theorem C20_exact_arithmetic_fails :
  forall n l, (0 < n)%nat -> length l = n -> (forall t, In t l -> legP n t = 0) ->
  exists d, 0 < d /\ forall eig, Forall2 (fun x r => Rabs (x - r) < d) eig l ->
    let pvd := polyvalderiv_loop (n - 1) legendre_alpha legendre_beta in
    legendre_rule n eig (exact_corr pvd) Rminus pvd = Raise AttributeError /\
    forall k, Forall2 (fun y r => Rabs (y - r) <= (/ 4) ^ k * d) (newton_points (exact_corr pvd) Rminus k eig) l.
Proof. exact legendre_newton. Qed.
Print Assumptions C20_exact_arithmetic_fails.

(** legendre(1): the 1 x 1 eigenvalue problem has the eigenvalue alpha_0 = 0,
    where the polynomial x vanishes exactly. *)
Theorem C20_legendre_1_raises :
  forall corr sub pvd, corr [0] = [0] -> sub 0 0 = 0 ->
    legendre_rule 1 [0] corr sub pvd = Raise AttributeError.
Proof. exact legendre_1_raises. Qed.
Print Assumptions C20_legendre_1_raises.

Theorem C20_legendre_0_raises :
  forall eig corr sub pvd, legendre_rule 0 eig corr sub pvd = Raise IndexError.
Proof. exact legendre_0_raises. Qed.
Print Assumptions C20_legendre_0_raises.

Example C20_exact_arithmetic_one_point :
  exact_corr (polyvalderiv_loop 0 legendre_alpha legendre_beta) [0] = [0] /\ 0 - 0 = 0.
Proof. exact exact_one_point. Qed.

(** C21: shape of the constants. *)
Theorem C21_rule_carries_the_constants :
  rx (nr kronrod_31_15) = kronrod_x /\ rw (nr kronrod_31_15) = kronrod_w /\ nv kronrod_31_15 = kronrod_v /\
  ra (nr kronrod_31_15) = -1 /\ rb (nr kronrod_31_15) = 1 /\ distances_ok (nr kronrod_31_15).
Proof. exact kronrod_rule_fields. Qed.
Print Assumptions C21_rule_carries_the_constants.

Theorem C21_symmetric_positive_increasing :
  length kronrod_x = 31%nat /\ length kronrod_w = 31%nat /\ length kronrod_v = 15%nat /\
  length (vsel kronrod_x) = 15%nat /\
  StronglySorted Rlt kronrod_x /\ Forall (fun x => -1 < x < 1) kronrod_x /\
  rev kronrod_x = map Ropp kronrod_x /\ rev kronrod_w = kronrod_w /\ rev kronrod_v = kronrod_v /\
  Forall (fun w => 0 < w) kronrod_w /\ Forall (fun w => 0 < w) kronrod_v.
Proof. exact kronrod_shape. Qed.
Print Assumptions C21_symmetric_positive_increasing.

(** C21: the decimals, and every rounding of them to doubles, integrate all
    polynomials with up to 48 (30) coefficients to the stated error. *)
Theorem C21_full_rule_error :
  forall x w n c, Forall2 near x kronrod_x -> Forall2 near w kronrod_w -> (n <= 48)%nat ->
    Rabs (quad x w (fun t => sumn n (fun k => c k * t ^ k)) - RInt (fun t => sumn n (fun k => c k * t ^ k)) (-1) 1)
      <= / 10 ^ 13 * sumn n (fun k => Rabs (c k)).
Proof. exact kronrod_31_error. Qed.
Print Assumptions C21_full_rule_error.

Theorem C21_embedded_rule_error :
  forall x v n c, Forall2 near x (vsel kronrod_x) -> Forall2 near v kronrod_v -> (n <= 30)%nat ->
    Rabs (quad x v (fun t => sumn n (fun k => c k * t ^ k)) - RInt (fun t => sumn n (fun k => c k * t ^ k)) (-1) 1)
      <= / 10 ^ 13 * sumn n (fun k => Rabs (c k)).
Proof. exact kronrod_15_error. Qed.
Print Assumptions C21_embedded_rule_error.

Example C21_literals_themselves : Forall2 near kronrod_x kronrod_x /\ Forall2 near kronrod_v kronrod_v.
Proof. split; apply near_refl. Qed.

(** C22 *)
Theorem C22_collocation_inverts_evaluation :
  forall r n,
    length (rx r) = n -> length (rw r) = n -> NoDup (rx r) ->
    exact_to (2 * n - 2) (rx r) (rw r) (-1) 1 ->
    let C := legendre_collocation r n in
    let V := fun i l => legP l (nth i (rx r) 0) in
    (forall l m, (l < n)%nat -> (m < n)%nat ->
       sumn n (fun j => C l j * V j m) = if Nat.eqb l m then 1 else 0) /\
    (forall i j, (i < n)%nat -> (j < n)%nat ->
       sumn n (fun l => V i l * C l j) = if Nat.eqb i j then 1 else 0) /\
    (forall y i, (i < n)%nat ->
       legval n (fun l => sumn n (fun j => C l j * y j)) (nth i (rx r) 0) = y i).
Proof. exact collocation_inverse. Qed.
Print Assumptions C22_collocation_inverts_evaluation.

Example C22_two_point_rule :
  length (rx gauss2) = 2%nat /\ length (rw gauss2) = 2%nat /\ NoDup (rx gauss2) /\
  exact_to (2 * 2 - 2) (rx gauss2) (rw gauss2) (-1) 1.
Proof. exact gauss2_colloc. Qed.
