(** C39, C40, C44: truncation, partial expansions and accuracy policy. *)
From Coq Require Import Reals ZArith Arith Bool Lra Lia String.
From Coquelicot Require Import Coquelicot.
From Coq Require Import List Sorting.Sorted.
From Verif.Model Require Import Base Util Num Poly SVE.
From Verif.Spec Require Import SPoly SSVE SBasis.
From Verif.Proofs Require Import UtilFacts PPolyExamples SVEFacts BasisFacts BasisProps SVEPolicy.
Import ListNotations.
Open Scope R_scope.
Notation length := List.length.

(** C39: every block is cut to a prefix, and in total no more than lmax values
    are kept. *)
Theorem C39_prefix_and_limit :
  forall (A B : Type) (blocks : list (block A B)) rtol lmax out,
  truncate blocks rtol lmax = Ok out ->
  Forall2 (fun b b' => exists k, (k <= length (snd (fst b)))%nat /\ prefix_of k b b') blocks out /\
  within (length (all_values out)) lmax.
Proof. exact @truncate_prefix. Qed.
Print Assumptions C39_prefix_and_limit.

(** C39: of sorted blocks exactly the values are kept that exceed rtol times the
    largest one and of which, counting ties, at most lmax are at least as large:
    a condition on the value only, common to all blocks and monotone. *)
Theorem C39_keeps_significant :
  forall (A B : Type) (blocks : list (block A B)) r lmax out,
  truncate blocks (Fin r) lmax = Ok out -> Forall (fun b => nonincreasing (snd (fst b))) blocks ->
  forall i b b' j x, nth_error blocks i = Some b -> nth_error out i = Some b' ->
    nth_error (snd (fst b)) j = Some x ->
    (nth_error (snd (fst b')) j = Some x \/ nth_error (snd (fst b')) j = None) /\
    (nth_error (snd (fst b')) j = Some x <-> significant (all_values blocks) r lmax x).
Proof. exact @truncate_sorted. Qed.
Print Assumptions C39_keeps_significant.

(** C39: validation, and the cases in which it ends. *)
Theorem C39_outcomes :
  forall (A B : Type) (blocks : list (block A B)) rtol lmax,
  (invalid_lmax lmax -> truncate blocks rtol lmax = Raise ValueError) /\
  (lmax <> Some (PyFloat PInf) -> (forall r, ~ valid_rtol rtol r) -> truncate blocks rtol lmax = Raise ValueError) /\
  (lmax = Some (PyFloat PInf) -> truncate blocks rtol lmax = Raise OverflowError) /\
  (forall r z, lmax = None \/ (lmax = Some (PyInt z) /\ 0 <= z)%Z -> valid_rtol rtol r ->
     all_values blocks <> [] -> exists out, truncate blocks rtol lmax = Ok out) /\
  (forall r z, lmax = Some (PyFloat (Fin (IZR z))) -> (0 <= z < Z.of_nat (length (all_values blocks)))%Z ->
     valid_rtol rtol r -> truncate blocks rtol lmax = Raise IndexError).
Proof. exact @truncate_outcomes. Qed.
Print Assumptions C39_outcomes.

Example C39_hypotheses_met :
  exists out, truncate [([tt; tt], [3; 1], [tt; tt]); ([tt], [2], [tt])] (Fin (1 / 10)) (Some (PyInt 2)) = Ok out /\
    Forall (fun b : block unit unit => nonincreasing (snd (fst b))) [([tt; tt], [3; 1], [tt; tt]); ([tt], [2], [tt])].
Proof.
  destruct (proj1 (proj2 (proj2 (proj2 (truncate_outcomes
     [([tt; tt], [3; 1], [tt; tt]); ([tt], [2], [tt])] (Fin (1 / 10)) (Some (PyInt 2)))))) (1 / 10) 2%Z) as [out H].
  - right. split; [auto|lia].
  - split; [auto|lra].
  - discriminate.
  - exists out. split; auto. repeat constructor; simpl; lra.
Qed.

(** C40: a successful call returns one common prefix. *)
Theorem C40_common_prefix :
  forall r eps ms u s v,
  length (vcols (su r)) = length (ss r) -> length (vcols (sv r)) = length (ss r) ->
  part r eps ms = Ok (u, s, v) ->
  exists n, (n <= length (ss r))%nat /\ u = take n (su r) /\ s = firstn n (ss r) /\ v = take n (sv r).
Proof. exact part_prefix. Qed.
Print Assumptions C40_common_prefix.

(** C40: its length. *)
Theorem C40_length :
  forall r eps e z,
  length (vcols (su r)) = length (ss r) -> length (vcols (sv r)) = length (ss r) -> ss r <> [] ->
  eff_eps eps (seps r) = Some e ->
  let result n := Ok (take n (su r), firstn n (ss r), take n (sv r)) in
  part r eps None = result (nabove e (ss r)) /\
  ((0 <= z)%Z -> part r eps (Some (PyInt z)) = result (Nat.min (Z.to_nat z) (nabove e (ss r)))) /\
  ((z < 0)%Z -> part r eps (Some (PyInt z)) = result (Z.to_nat (Z.of_nat (length (ss r)) + z))).
Proof. exact part_limits. Qed.
Print Assumptions C40_length.

(** C40: for non-increasing values, those counted are those above the threshold. *)
Theorem C40_threshold :
  forall e s, 0 <= e -> nonincreasing s ->
  forall j x, nth_error s j = Some x -> ((j < nabove e s)%nat <-> e * nth 0 s 0 <= x).
Proof. exact part_threshold. Qed.
Print Assumptions C40_threshold.

(** C40: the cases in which it raises. *)
Theorem C40_errors :
  forall r eps ms,
  (ss r = [] -> part r eps ms = Raise IndexError) /\
  (ss r <> [] -> eff_eps eps (seps r) = None -> part r eps ms = Raise TypeError).
Proof. exact part_errors. Qed.
Print Assumptions C40_errors.

Example C40_hypotheses_met :
  part (ex_sve (1 / 10)) (Some (9 / 10)) None = Ok (take 1 ex_poly, [1], take 1 ex_poly) /\
  part (ex_sve (1 / 10)) (Some (9 / 10)) (Some (PyInt (-0))) = Ok (take 0 ex_poly, [], take 0 ex_poly) /\
  part (ex_sve (9 / 10)) None (Some (PyInt (-1))) = Ok (take 1 ex_poly, [1], take 1 ex_poly).
Proof.
  destruct (part_limits (ex_sve (1 / 10)) (Some (9 / 10)) (9 / 10) 0) as (H1 & H2 & _); try reflexivity; [discriminate|].
  destruct (part_limits (ex_sve (9 / 10)) None (9 / 10) (-1)) as (_ & _ & H3); try reflexivity; [discriminate|].
  cbn [ex_sve ss] in H1. rewrite (proj2 (ex_nabove (9 / 10))) in H1 by lra.
  split; [exact H1|]. split; [apply H2; lia|apply H3; lia].
Qed.

(** C44: the decision table. *)
Theorem C44_policy :
  forall hx dd eps work strat safe t st warn,
  safe_eps hx dd eps work strat = (safe, t, st, warn) ->
  (forall w, work = Some w -> t = w) /\
  (work = None -> (eps = None \/ (exists e, eps = Some e /\ below e (/ 10 ^ 8))) -> t = if hx then DDouble else Float64) /\
  (forall e, work = None -> eps = Some e -> ~ below e (/ 10 ^ 8) -> t = Float64) /\
  (t = Float64 -> safe = / 10 ^ 8) /\
  (t = DDouble -> safe = sqrt dd) /\ (forall e, t = OtherType e -> safe = sqrt e) /\
  (forall s, strat = Some s -> st = s) /\
  (warn = true <-> strat = None /\ exists e, eps = Some e /\ below e safe) /\
  (strat = None -> st = if warn then "accurate"%string else "fast"%string).
Proof. exact policy_types. Qed.
Print Assumptions C44_policy.

(** C44: which algorithm the SVD runs. *)
Theorem C44_dispatch :
  forall hx hj t st,
  (hx = true -> t = DDouble -> svd_dispatch hx hj t st = Ok (AlgDDouble, false)) /\
  (t <> DDouble ->
     (st = "fast"%string -> svd_dispatch hx hj t st = Ok (AlgID, false)) /\
     (st = "default"%string -> svd_dispatch hx hj t st = Ok (AlgLapack, false)) /\
     (st = "accurate"%string -> svd_dispatch hx hj t st = Ok (if hj then AlgJacobi else AlgLapack, negb hj)) /\
     (~ In st ["fast"; "default"; "accurate"]%string -> svd_dispatch hx hj t st = Raise ValueError)).
Proof. exact dispatch. Qed.
Print Assumptions C44_dispatch.

(** C44: the strategy the policy chooses is always one the SVD accepts. *)
Theorem C44_policy_is_dispatched :
  forall hx hj dd eps work strat safe t st warn,
  safe_eps hx dd eps work strat = (safe, t, st, warn) ->
  (strat = None \/ (exists s, strat = Some s /\ In s ["fast"; "default"; "accurate"]%string)) ->
  exists alg w, svd_dispatch hx hj t st = Ok (alg, w).
Proof. exact policy_dispatch. Qed.
Print Assumptions C44_policy_is_dispatched.

(** C44: in double-double precision the strategy, even an unknown one, has no
    effect. *)
Theorem C44_strategy_matters_refuted :
  forall hj st, svd_dispatch true hj DDouble st = Ok (AlgDDouble, false).
Proof. intros. apply dispatch; reflexivity. Qed.
Print Assumptions C44_strategy_matters_refuted.

Example C44_hypotheses_met :
  exists safe t, safe_eps false (/ 2 ^ 104) (Some (Fin (/ 10 ^ 12))) None None = (safe, t, "accurate"%string, true).
Proof.
  destruct (safe_eps false (/ 2 ^ 104) (Some (Fin (/ 10 ^ 12))) None None) as [[[safe t] st] w] eqn:E.
  destruct (policy _ _ _ _ _ _ _ _ _ E) as (_ & P1 & _ & P2 & _ & _ & P3 & P4).
  assert (Hb : forall n, (8 <= n)%nat -> / 10 ^ 12 < / 10 ^ 8).
  { intros. apply Rinv_lt_contravar; simpl; lra. }
  assert (Et : t = Float64) by (apply P1; auto; right; eexists; split; [reflexivity|apply (Hb 8%nat); lia]).
  assert (Ew : w = true).
  { apply P3. split; auto. eexists. split; [reflexivity|]. rewrite P2 by auto. apply (Hb 8%nat). lia. }
  exists safe, t. rewrite (P4 eq_refl), Ew. reflexivity.
Qed.
