(** Model of /repo/src/sparse_ir/_gauss.py: quadrature rules, their
    transformations, the construction of Gauss rules from a recurrence and the
    collocation matrix.  Arithmetic is exact; the Newton refinement takes the
    values computed by [_polyvalderiv], and the working-precision operations, as
    parameters so that its control flow is modelled for every rounding. *)
From Coq Require Import List Reals ZArith Arith Bool.
From Verif.Model Require Import Base Num.
Import ListNotations.
Open Scope R_scope.

(** _gauss.py:10-32, class Rule: attributes x, w, x_forward, x_backward, a, b. *)
Record rule := Rule {
  rx : list R; rw : list R; rfw : list R; rbw : list R; ra : R; rb : R }.

(** _gauss.py:20-32, Rule.__init__. *)
Definition rule_init (x w : list R) (fw bw : option (list R)) (a b : R) : rule :=
  Rule x w
       (match fw with None => map (fun t => t - a) x | Some f => f end)
       (match bw with None => map (fun t => b - t) x | Some f => f end)
       a b.

(** _gauss.py:34-41, Rule.reseat. *)
Definition reseat (r : rule) (a b : R) : rule :=
  let scaling := (b - a) / (rb r - ra r) in
  rule_init (map (fun t => scaling * (t - (rb r + ra r) / 2) + (b + a) / 2) (rx r))
            (map (fun t => t * scaling) (rw r))
            (Some (map (fun t => t * scaling) (rfw r)))
            (Some (map (fun t => t * scaling) (rbw r)))
            a b.

(** _gauss.py:43-46, Rule.scale. *)
Definition scale (r : rule) (factor : R) : rule :=
  rule_init (rx r) (map (fun t => t * factor) (rw r)) (Some (rfw r)) (Some (rbw r)) (ra r) (rb r).

(** _gauss.py:76-82, the loop of Rule.join collecting the parts. *)
Fixpoint join_parts (a b prev_b : R) (rs : list rule) : res (list (list R * list R * list R * list R)) :=
  match rs with
  | [] => Ok []
  | curr :: rest =>
      if Reqb (ra curr) prev_b then
        do parts <- join_parts a b (rb curr) rest;
        Ok ((rx curr, rw curr,
             map (fun t => t + (ra curr - a)) (rfw curr),
             map (fun t => t + (b - rb curr)) (rbw curr)) :: parts)
      else Raise ValueError
  end.

(** _gauss.py:65-85, Rule.join. *)
Definition join (rs : list rule) : res rule :=
  match rs with
  | [] => Ok (rule_init [] [] None None (-1) 1)
  | r0 :: _ =>
      let a := ra r0 in
      let b := rb (last rs r0) in
      do parts <- join_parts a b a rs;
      Ok (rule_init (concat (map (fun p => fst (fst (fst p))) parts))
                    (concat (map (fun p => snd (fst (fst p))) parts))
                    (Some (concat (map (fun p => snd (fst p)) parts)))
                    (Some (concat (map (fun p => snd p) parts)))
                    a b)
  end.

(** _gauss.py:48-57, Rule.piecewise. *)
Definition piecewise (r : rule) (edges : list R) : res rule :=
  let start := init edges in
  let stop := tl edges in
  if forallb (fun x => x) (map2 (fun s t => Rltb s t) start stop)
  then join (map2 (reseat r) start stop)
  else Raise ValueError.

(** _gauss.py:203-222, NestedRule: a rule with a second weight array v on the
    nodes x[1::2]; reseat and scale also transform v. *)
Record nested := Nested { nr : rule; nv : list R }.
Definition nreseat (r : nested) (a b : R) : nested :=
  Nested (reseat (nr r) a b) (map (fun t => (b - a) / (rb (nr r) - ra (nr r)) * t) (nv r)).
Definition nscale (r : nested) (factor : R) : nested :=
  Nested (scale (nr r) factor) (map (fun t => factor * t) (nv r)).
(** x[vsel] with vsel = slice(1, None, 2). *)
Fixpoint vsel {A} (l : list A) : list A :=
  match l with
  | _ :: y :: l' => y :: vsel l'
  | _ => []
  end.

(** _gauss.py:160-181, _polyvalderiv at one point, for n >= 1 coefficients;
    the state is (p1, dp1, p0, dp0). *)
Fixpoint polyvalderiv_loop (m : nat) (alpha beta : nat -> R) (x : R) : R * R * R * R :=
  match m with
  | O => (x - alpha 0%nat * 1, 1, 1, 0)
  | S m' =>
      let '(p1, dp1, p0, dp0) := polyvalderiv_loop m' alpha beta x in
      let x_minus_alpha := x - alpha (S m') in
      let p2 := x_minus_alpha * p1 - beta (S m') * p0 in
      let dp2 := p1 + x_minus_alpha * dp1 - beta (S m') * dp0 in
      (p2, dp2, p1, dp1)
  end.
(** len(alpha) = 0 raises IndexError at alpha[0]. *)
Definition polyvalderiv (n : nat) (alpha beta : nat -> R) (x : R) : res (R * R * R * R) :=
  match n with
  | O => Raise IndexError
  | S m => Ok (polyvalderiv_loop m alpha beta x)
  end.

(** _gauss.py:184-200, _legendre_recurrence: alpha = 0, beta = k^2/(4k^2-1) with
    beta[0] = 2, a = -1, b = 1. *)
Definition legendre_alpha (k : nat) : R := 0.
Definition legendre_beta (k : nat) : R :=
  match k with O => 2 | _ => INR k ^ 2 / (4 * INR k ^ 2 - 1) end.

(** _gauss.py:135-150: the Newton loop.  [corr x] are the corrections p/dp as
    computed at the points x, [sub] the subtraction as computed.  [Ok x] is a
    [break]; running out of iterations enters the for-else branch, whose
    "{.2g}".format(currdiff) looks up attribute 2g of a float: AttributeError.
    The maximum over no points raises ValueError. *)
Fixpoint newton_loop (iters : nat) (corr : list R -> list R) (sub : R -> R -> R)
         (prevdiff : R) (x : list R) : res (list R) :=
  match iters with
  | O => Raise AttributeError
  | S it =>
      let diff := corr x in
      let x' := map2 sub x diff in
      match rmax_list (map Rabs diff) with
      | None => Raise ValueError
      | Some currdiff =>
          if Rleb (2 * currdiff) prevdiff
          then newton_loop it corr sub currdiff x'
          else Ok x'
      end
  end.

(** _gauss.py:152-156: weights from the derivative and the previous polynomial,
    scaled to sum to beta[0] = b - a.  [pvd] gives (p1, dp1, p0, dp0). *)
Definition gauss_weights (pvd : R -> R * R * R * R) (total : R) (x : list R) : list R :=
  let w := map (fun t => let '(_, dp1, p0, _) := pvd t in 1 / (dp1 * p0)) x in
  map (fun t => t * (total / rsum w)) w.

(** _gauss.py:106-157, rule_from_recurrence.  [eig] is the result of scipy's
    tridiagonal eigenvalue solver, [corr] and [sub] as in [newton_loop], [pvd]
    the final evaluation.  Setting beta[0] = b - a is the only change to beta;
    beta >= 0 is tested after it. *)
Definition rule_from_recurrence (n : nat) (beta : nat -> R) (a b : R)
    (eig : list R) (corr : list R -> list R) (sub : R -> R -> R)
    (pvd : R -> R * R * R * R) : res rule :=
  match n with
  | O => Raise IndexError
  | S _ =>
      let beta' := fun k => match k with O => b - a | _ => beta k end in
      if forallb (fun k => Rleb 0 (beta' k)) (seq 0 n) then
        do x <- newton_loop 5 corr sub 1 eig;
        Ok (rule_init x (gauss_weights pvd (b - a) x)
                      (Some (map (fun t => t - a) x)) (Some (map (fun t => b - t) x)) a b)
      else Raise NotImplementedError
  end.

(** _gauss.py:138-140: the corrections in exact arithmetic. *)
Definition exact_corr (pvd : R -> R * R * R * R) (x : list R) : list R :=
  map (fun t => let '(p, dp, _, _) := pvd t in p / dp) x.

(** _gauss.py:88-90, legendre(n), with the solver and the rounded arithmetic as
    parameters; n = 0 raises IndexError at beta[0] = 2. *)
Definition legendre_rule (n : nat) (eig : list R) (corr : list R -> list R) (sub : R -> R -> R)
    (pvd : R -> R * R * R * R) : res rule :=
  match n with
  | O => Raise IndexError
  | S _ => rule_from_recurrence n legendre_beta (-1) 1 eig corr sub pvd
  end.

(** _gauss.py:93-103, legendre_collocation: entry (l, j) of the n x size matrix
    P_l(x_j) * w_j * (l + 1/2). *)
Definition legendre_collocation (r : rule) (n : nat) (l j : nat) : R :=
  legP l (nth j (rx r) 0) * nth j (rw r) 0 * (INR l + / 2).
Definition legendre_collocation_n (r : rule) (n : option nat) : nat :=
  match n with None => length (rx r) | Some k => k end.
