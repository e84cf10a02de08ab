(** Collected statements and concrete instances for the quadrature properties. *)
From Coquelicot Require Import Coquelicot.
From Coq Require Import List Reals Arith Bool Lia Lra Sorting.
From Verif.Model Require Import Base Num Gauss.
From Verif.Spec Require Import SGauss.
From Verif.Proofs Require Import SumFacts IntFacts LegFacts PolyFacts GaussFacts GaussExact.
Import ListNotations.
Open Scope R_scope.

Lemma all_distances :
  (forall x w a b, distances_ok (rule_init x w None None a b)) /\
  (forall r a b, ra r <> rb r -> distances_ok r -> distances_ok (reseat r a b)) /\
  (forall r c, distances_ok r -> distances_ok (scale r c)) /\
  (forall rs r, Forall distances_ok rs -> join rs = Ok r -> distances_ok r) /\
  (forall r edges q, ra r <> rb r -> distances_ok r -> piecewise r edges = Ok q -> distances_ok q).
Proof.
  split; [apply init_distances|]. split; [apply reseat_distances|]. split; [apply scale_distances|].
  split; [apply join_distances|apply piecewise_distances].
Qed.
Lemma all_placed :
  (forall r a b, ra r < rb r -> a < b -> placed r -> placed (reseat r a b)) /\
  (forall r c, placed r -> placed (scale r c)) /\
  (forall rs r, rs <> [] -> Forall (fun r => ra r <= rb r) rs -> Forall placed rs -> join rs = Ok r -> placed r) /\
  (forall r edges q, (2 <= length edges)%nat -> ra r < rb r -> placed r -> piecewise r edges = Ok q -> placed q).
Proof.
  split; [apply reseat_placed|]. split; [auto|]. split; [apply join_placed|apply piecewise_placed].
Qed.
Lemma all_placed_closed :
  (forall r a b, ra r < rb r -> a <= b -> placed_closed r -> placed_closed (reseat r a b)) /\
  (forall r c, placed_closed r -> placed_closed (scale r c)) /\
  (forall rs r, rs <> [] -> Forall (fun r => ra r <= rb r) rs -> Forall placed_closed rs -> join rs = Ok r -> placed_closed r) /\
  (forall r edges q, (2 <= length edges)%nat -> ra r < rb r -> placed_closed r -> piecewise r edges = Ok q -> placed_closed q).
Proof.
  split; [apply reseat_placed_closed|]. split; [auto|]. split; [apply join_placed_closed|apply piecewise_placed_closed].
Qed.
Lemma all_intervals :
  (forall r a b, ra (reseat r a b) = a /\ rb (reseat r a b) = b) /\
  (forall r c, ra (scale r c) = ra r /\ rb (scale r c) = rb r) /\
  (forall rs r, rs <> [] -> join rs = Ok r ->
     exists first rest, rs = first :: rest /\ ra r = ra first /\ rb r = rb (last rs first)) /\
  (forall r edges q d, (2 <= length edges)%nat -> piecewise r edges = Ok q ->
     ra q = hd d edges /\ rb q = last edges d).
Proof. split; [auto|]. split; [auto|]. split; [apply join_interval|apply piecewise_interval]. Qed.
Lemma all_sums :
  (forall r a b, rsum (rw (reseat r a b)) = rsum (rw r) * ((b - a) / (rb r - ra r))) /\
  (forall r c, rsum (rw (scale r c)) = rsum (rw r) * c) /\
  (forall rs r, join rs = Ok r -> rsum (rw r) = rsum (map (fun s => rsum (rw s)) rs)) /\
  (forall r edges q d, ra r <> rb r -> piecewise r edges = Ok q ->
     rsum (rw q) = rsum (rw r) * ((last edges d - hd d edges) / (rb r - ra r))).
Proof. split; [apply reseat_sum|]. split; [apply scale_sum|]. split; [apply join_sum|apply piecewise_sum]. Qed.

Lemma vsel_map {A B} (f : A -> B) l : vsel (map f l) = map f (vsel l).
Proof.
  enough (H : vsel (map f l) = map f (vsel l) /\ forall x, vsel (map f (x :: l)) = map f (vsel (x :: l))) by tauto.
  induction l as [|x l [IH1 IH2]]; split; auto.
  intros y. simpl. f_equal. auto.
Qed.

Lemma nested_all :
  (forall r a b, rsum (nv (nreseat r a b)) = rsum (nv r) * ((b - a) / (rb (nr r) - ra (nr r))) /\
                 nr (nreseat r a b) = reseat (nr r) a b) /\
  (forall r c, rsum (nv (nscale r c)) = rsum (nv r) * c /\ nr (nscale r c) = scale (nr r) c) /\
  (forall d r a b, ra (nr r) <> rb (nr r) ->
     exact_to d (vsel (rx (nr r))) (nv r) (ra (nr r)) (rb (nr r)) ->
     exact_to d (vsel (rx (nr (nreseat r a b)))) (nv (nreseat r a b)) a b).
Proof.
  split; [|split].
  - intros r a b. split; auto. simpl. rewrite <- rsum_map_scal. f_equal. apply map_ext. intros; ring.
  - intros r c. split; auto. simpl. rewrite <- rsum_map_scal. f_equal. apply map_ext. intros; ring.
  - intros d r a b Hr He.
    pose proof (reseat_exact d (Rule (vsel (rx (nr r))) (nv r) [] [] (ra (nr r)) (rb (nr r))) a b Hr He) as H.
    simpl in H |- *. rewrite vsel_map.
    rewrite (map_ext (fun t => t * ((b - a) / (rb (nr r) - ra (nr r)))) (fun t => (b - a) / (rb (nr r) - ra (nr r)) * t)) in H by (intros; ring).
    exact H.
Qed.

Lemma piecewise_raises r edges :
    (chained Rlt edges -> exists q, piecewise r edges = Ok q) /\
    (~ chained Rlt edges -> piecewise r edges = Raise ValueError).
Proof.
  destruct (piecewise_spec r edges) as [H1 H2]. split; auto. intros H. destruct (H1 H) as (q & E & _). eauto.
Qed.
Lemma join_raises rs :
    (chained abut rs -> exists q, join rs = Ok q) /\
    (~ chained abut rs -> join rs = Raise ValueError).
Proof.
  destruct (join_spec rs) as [H1 H2]. split; auto. intros H. destruct rs as [|r rs]; [eexists; reflexivity|].
  destruct H1 as (? & ? & ? & E); [discriminate|auto|]. eauto.
Qed.
Lemma join_nothing :
  join [] = Ok (Rule [] [] [] [] (-1) 1) /\
  forall r edges, (length edges < 2)%nat -> piecewise r edges = Ok (Rule [] [] [] [] (-1) 1).
Proof. split; [reflexivity|apply piecewise_empty]. Qed.

Lemma rule_from_ok_inv n beta a b eig corr sub pvd r :
  rule_from_recurrence n beta a b eig corr sub pvd = Ok r ->
  exists x, newton_loop 5 corr sub 1 eig = Ok x /\
    r = rule_init x (gauss_weights pvd (b - a) x)
          (Some (map (fun t => t - a) x)) (Some (map (fun t => b - t) x)) a b.
Proof.
  unfold rule_from_recurrence. destruct n; [discriminate|].
  destruct (forallb _ _); [|discriminate].
  destruct (newton_loop 5 corr sub 1 eig) as [x|]; cbn [bind]; [|discriminate].
  intros [= <-]. eauto.
Qed.
Lemma rule_weights_sum n beta a b eig corr sub pvd r :
    rule_from_recurrence n beta a b eig corr sub pvd = Ok r ->
    rsum (map (fun t => let '(_, dp1, p0, _) := pvd t in 1 / (dp1 * p0)) (rx r)) <> 0 ->
    rsum (rw r) = b - a /\ length (rw r) = length (rx r) /\ distances_ok r /\ ra r = a /\ rb r = b.
Proof.
  intros H Hs. apply rule_from_ok_inv in H as (x & _ & ->). cbn [rule_init rx rw ra rb] in *.
  split; [apply gauss_weights_sum; auto|]. split; [|repeat split; reflexivity].
  unfold gauss_weights. rewrite !map_length. auto.
Qed.

Lemma family_unique alpha beta Q Q' : recurrence_family alpha beta Q -> recurrence_family alpha beta Q' ->
  forall n x, Q n x = Q' n x.
Proof.
  intros (A0 & A1 & A2) (B0 & B1 & B2) n x. revert n. apply pair_ind.
  - rewrite A0, B0; auto.
  - rewrite A1, B1; auto.
  - intros k E0 E1. rewrite A2, B2, E0, E1. auto.
Qed.

Lemma legendre_rule_gauss n Q eig corr sub r :
    recurrence_family legendre_alpha legendre_beta Q ->
    legendre_rule n eig corr sub (polyvalderiv_loop (n - 1) legendre_alpha legendre_beta) = Ok r ->
    NoDup (rx r) -> length (rx r) = n -> (forall t, In t (rx r) -> Q n t = 0) ->
    exact_to (2 * n - 1) (rx r) (rw r) (-1) 1 /\
    Forall (fun w => 0 < w) (rw r) /\ rsum (rw r) = 2 /\ ra r = -1 /\ rb r = 1.
Proof.
  intros HQ H Hnd Hlen Hz. unfold legendre_rule in H. destruct n as [|n]; [discriminate|].
  apply rule_from_ok_inv in H as (x & _ & ->). cbn [rule_init rx rw ra rb] in *.
  replace (1 - -1) with 2 by ring.
  destruct (legendre_rule_exact (S n) x) as [He Hp]; auto; [lia| |].
  { intros t Ht. rewrite (family_unique _ _ _ Q (family_ok _ _) HQ). auto. }
  repeat split; auto.
  assert (H1 : is_RInt (fun _ => 1) (-1) 1 (quad x (gauss_weights (polyvalderiv_loop (S n - 1) legendre_alpha legendre_beta) 2 x) (fun _ => 1))).
  { apply He. apply (polylt_mono 1); [lia|apply polylt_const]. }
  apply RInt_val in H1. rewrite (RInt_val _ _ _ _ (is_RInt_constR (-1) 1 1)) in H1.
  replace 2 with ((1 - -1) * 1) at 2 by ring. rewrite H1.
  unfold gauss_weights. rewrite map_map. rewrite quad_mapw. apply rsum_map_ext. intros; ring.
Qed.

Lemma legendre_1_raises corr sub pvd : corr [0] = [0] -> sub 0 0 = 0 ->
    legendre_rule 1 [0] corr sub pvd = Raise AttributeError.
Proof.
  intros Hc Hs. apply exact_start_fails; auto; try lra; try (intros; lia); try discriminate.
  - rewrite Hc; auto.
  - rewrite Hc. repeat constructor.
  - intros t [<-|[]]. auto.
Qed.
Lemma legendre_0_raises eig corr sub pvd : legendre_rule 0 eig corr sub pvd = Raise IndexError.
Proof. reflexivity. Qed.
Lemma exact_one_point :
  exact_corr (polyvalderiv_loop 0 legendre_alpha legendre_beta) [0] = [0] /\ 0 - 0 = 0.
Proof.
  split; [|ring]. unfold exact_corr. simpl. unfold legendre_alpha. f_equal. field.
Qed.

Lemma collocation_inverse r n :
    length (rx r) = n -> length (rw r) = n -> NoDup (rx r) ->
    exact_to (2 * n - 2) (rx r) (rw r) (-1) 1 ->
    let C := legendre_collocation r n in
    let V := fun i l => legP l (nth i (rx r) 0) in
    (forall l m, (l < n)%nat -> (m < n)%nat ->
       sumn n (fun j => C l j * V j m) = if Nat.eqb l m then 1 else 0) /\
    (forall i j, (i < n)%nat -> (j < n)%nat ->
       sumn n (fun l => V i l * C l j) = if Nat.eqb i j then 1 else 0) /\
    (forall y i, (i < n)%nat ->
       legval n (fun l => sumn n (fun j => C l j * y j)) (nth i (rx r) 0) = y i).
Proof.
  intros Hx Hw Hnd He C V.
  assert (HL : forall i j, (i < n)%nat -> (j < n)%nat ->
       sumn n (fun l => V i l * C l j) = if Nat.eqb i j then 1 else 0).
  { intros i j Hi Hj. apply colloc_left; auto. }
  split; [|split; auto].
  - intros l m Hl Hm. rewrite <- (colloc_right r n l m); auto; [|lia|lia].
    rewrite Hx. apply sumn_ext. auto.
  - intros y i Hi. unfold legval.
    rewrite (sumn_ext n _ (fun k => sumn n (fun j => V i k * C k j * y j))).
    2:{ intros k _. rewrite <- sumn_scal_r. apply sumn_ext. intros; unfold V; ring. }
    rewrite sumn_swap. rewrite (sumn_ext n _ (fun j => (if Nat.eqb i j then 1 else 0) * y j)).
    2:{ intros j Hj. rewrite sumn_scal_r, HL; auto. }
    rewrite (sumn_single n _ i Hi); [rewrite Nat.eqb_refl; ring|].
    intros j _ Hj. rewrite (proj2 (Nat.eqb_neq i j)) by auto. ring.
Qed.

(** * The two-point rule *)
Definition g2 : R := / sqrt 3.
Definition gauss2 : rule := rule_init [- g2; g2] [1; 1] None None (-1) 1.
Lemma g2_sq : g2 * g2 = 1 / 3.
Proof.
  unfold g2. rewrite <- Rinv_mult. rewrite sqrt_sqrt by lra. lra.
Qed.
Lemma g2_pos : 0 < g2.
Proof. apply Rinv_0_lt_compat, sqrt_lt_R0. lra. Qed.
Lemma g2_lt1 : g2 < 1.
Proof. pose proof g2_sq. pose proof g2_pos. nra. Qed.

Lemma is_RInt_pow k a b : is_RInt (fun x => x ^ k) a b ((b ^ S k - a ^ S k) / INR (S k)).
Proof.
  eapply is_RInt_eq.
  - apply (is_RInt_deriv (fun x => x ^ S k / INR (S k))).
    + intros x. pose proof (is_derive_pow (fun t : R => t) (S k) x 1 (is_derive_id (K := R_AbsRing) x)) as D.
      pose proof (is_derive_scal_l (fun t : R => t ^ S k) x _ (/ INR (S k)) D) as D'.
      unfold scal in D'; simpl in D'; unfold mult in D'; simpl in D'.
      match type of D' with is_derive _ _ ?v => replace (x ^ k) with v; [exact D'|] end.
      change (match k with 0%nat => 1 | S _ => INR k + 1 end) with (INR (S k)).
      rewrite S_INR. pose proof (INR_nonneg k). field. lra.
    + intros x. apply continuous_pow.
  - rewrite S_INR. pose proof (INR_nonneg k). field. lra.
Qed.

(** A rule is exact to degree d iff it is on the monomials. *)
Lemma quad_sumn x w n (f : nat -> R -> R) : quad x w (fun t => sumn n (fun k => f k t)) = sumn n (fun k => quad x w (f k)).
Proof.
  revert w. induction x as [|t x IH]; intros [|v w]; try (rewrite sumn_zero; auto; fail).
  rewrite quad_cons, IH, <- sumn_scal, <- sumn_plus. apply sumn_ext. intros; rewrite quad_cons; auto.
Qed.
Lemma quad_scal x w c f : quad x w (fun t => c * f t) = c * quad x w f.
Proof.
  revert w. induction x as [|t x IH]; intros [|v w]; try (unfold quad; simpl; ring).
  rewrite !quad_cons, IH. ring.
Qed.
Lemma exact_monomials d x w a b :
  (forall k, (k <= d)%nat -> quad x w (fun t => t ^ k) = (b ^ S k - a ^ S k) / INR (S k)) -> exact_to d x w a b.
Proof.
  intros H f [c Hc]. apply (is_RInt_fext (fun x => sumn (S d) (fun k => c k * x ^ k))); [intros; symmetry; apply Hc|].
  rewrite (quad_ext _ _ f (fun t => sumn (S d) (fun k => c k * t ^ k))) by (intros; apply Hc).
  rewrite quad_sumn. eapply is_RInt_eq.
  - apply (RInt_sumn (S d) (fun k x => c k * x ^ k)). intros k _. apply ex_RInt_cont.
    intros; apply continuous_scal2, continuous_pow.
  - apply sumn_ext. intros k Hk. rewrite quad_scal, H by lia. apply RInt_val.
    apply is_RInt_scalR, is_RInt_pow.
Qed.

Lemma gauss2_exact : exact_to 3 (rx gauss2) (rw gauss2) (-1) 1.
Proof.
  apply exact_monomials. intros k Hk. unfold quad, gauss2. simpl. pose proof g2_sq.
  do 4 (destruct k as [|k]; [simpl; nra|]). lia.
Qed.

Lemma gauss2_distances : distances_ok gauss2.
Proof. split; reflexivity. Qed.
Lemma gauss2_placed : placed gauss2.
Proof.
  pose proof g2_pos. pose proof g2_lt1. split; simpl.
  - repeat constructor; lra.
  - repeat constructor; lra.
Qed.
Lemma gauss2_piecewise :
  distances_ok gauss2 /\ placed gauss2 /\ ra gauss2 < rb gauss2 /\
  exists q, piecewise gauss2 [0; 1; 3] = Ok q /\ length (rx q) = 4%nat /\
            distances_ok q /\ placed q /\ ra q = 0 /\ rb q = 3 /\ rsum (rw q) = 3.
Proof.
  split; [apply gauss2_distances|]. split; [apply gauss2_placed|]. split; [simpl; lra|].
  destruct (proj1 (piecewise_spec gauss2 [0; 1; 3])) as (q & Hq & Hj); [simpl; lra|].
  exists q. split; auto.
  split.
  { pose proof (join_ok_inv _ _ Hj ltac:(discriminate)) as (_ & r0 & tl & E & ->). unfold joined. cbn [rx]. reflexivity. }
  split; [eapply piecewise_distances; [|apply gauss2_distances|exact Hq]; simpl; lra|].
  split; [eapply piecewise_placed; [| |apply gauss2_placed|exact Hq]; simpl; [lia|lra]|].
  destruct (piecewise_interval gauss2 [0; 1; 3] q 0 ltac:(simpl; lia) Hq) as [Ea Eb].
  rewrite Ea, Eb. split; auto. split; auto.
  rewrite (piecewise_sum gauss2 [0; 1; 3] q 0); auto; [|simpl; lra].
  unfold gauss2, rsum. simpl. field.
Qed.
Lemma gauss2_abs :
  exact_to 3 (rx gauss2) (rw gauss2) (-1) 1 /\
  exists q, piecewise gauss2 [-1; 0; 1] = Ok q /\ quad (rx q) (rw q) Rabs = 1.
Proof.
  split; [apply gauss2_exact|].
  destruct (proj1 (piecewise_spec gauss2 [-1; 0; 1])) as (q & Hq & Hj); [simpl; lra|].
  exists q. split; auto.
  assert (H : is_RInt Rabs (-1) 1 (quad (rx q) (rw q) Rabs)).
  { apply (piecewise_exact 3 gauss2 [-1; 0; 1] q Rabs 0); auto; try (simpl; lia); try (simpl; lra).
    - apply gauss2_placed.
    - apply gauss2_exact.
    - split; [|split; [|exact I]].
      + exists (fun x => (-1) * x + 0). split; [apply (polylt_mono 2); [lia|apply polylt_lin]|].
        intros x Hx. rewrite Rabs_left by lra. ring.
      + exists (fun x => 1 * x + 0). split; [apply (polylt_mono 2); [lia|apply polylt_lin]|].
        intros x Hx. rewrite Rabs_right by lra. ring. }
  apply RInt_val in H. rewrite <- H. apply RInt_val.
  eapply is_RInt_eq.
  - apply (is_RInt_chasles _ (-1) 0 1).
    + apply (is_RInt_ext_in (fun x => (-1) * x ^ 1)); [lra| |apply is_RInt_scalR, is_RInt_pow].
      intros x Hx. rewrite Rabs_left by lra. ring.
    + apply (is_RInt_ext_in (fun x => x ^ 1)); [lra| |apply is_RInt_pow].
      intros x Hx. rewrite Rabs_right by lra. ring.
  - simpl. field.
Qed.
Lemma gauss2_colloc :
  length (rx gauss2) = 2%nat /\ length (rw gauss2) = 2%nat /\ NoDup (rx gauss2) /\
  exact_to (2 * 2 - 2) (rx gauss2) (rw gauss2) (-1) 1.
Proof.
  pose proof g2_pos. split; auto. split; auto. split.
  - simpl. repeat constructor; simpl; intuition lra.
  - intros f Hf. apply gauss2_exact. apply (polylt_mono 3); auto.
Qed.

Lemma gauss2_run :
  exists eig corr sub r,
    legendre_rule 2 eig corr sub (polyvalderiv_loop 1 legendre_alpha legendre_beta) = Ok r /\
    NoDup (rx r) /\ length (rx r) = 2%nat /\
    (forall t, In t (rx r) -> family legendre_alpha legendre_beta 2 t = 0).
Proof.
  (* a first correction of size 3/4 already fails to halve *)
  exists [- g2 + 3 / 4; g2 + 3 / 4], (fun _ => [3 / 4; 3 / 4]), Rminus.
  assert (Hn : newton_loop 5 (fun _ => [3 / 4; 3 / 4]) Rminus 1 [- g2 + 3 / 4; g2 + 3 / 4]
               = Ok [- g2 + 3 / 4 - 3 / 4; g2 + 3 / 4 - 3 / 4]).
  { assert (L : largest [3 / 4; 3 / 4] (3 / 4)).
    { split; [simpl; left; rewrite Rabs_right; lra|]. repeat constructor; rewrite Rabs_right; lra. }
    destruct (newton_loop_spec (fun _ => [3 / 4; 3 / 4]) Rminus 5 1 [- g2 + 3 / 4; g2 + 3 / 4] (fun _ => 3 / 4)) as [H _]; [auto|].
    rewrite (H 0%nat); [reflexivity|lia|intros; lia|lra]. }
  eexists. split.
  - unfold legendre_rule. rewrite rule_from_recurrence_newton; [|lia|lra|].
    + rewrite Hn. cbn [bind]. reflexivity.
    + intros k Hk. assert (k = 1%nat) by lia. subst. unfold legendre_beta. simpl. lra.
  - cbn [rule_init rx]. pose proof g2_pos. split; [|split; auto].
    + repeat constructor; simpl; intuition lra.
    + assert (E : forall t, family legendre_alpha legendre_beta 2 t = t * t - 1 / 3).
      { intros t. unfold family. simpl. unfold legendre_alpha, legendre_beta. simpl. lra. }
      pose proof g2_sq. simpl. intros t [<-|[<-|[]]]; rewrite E; nra.
Qed.
