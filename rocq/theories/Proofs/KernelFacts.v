(** Values of the kernels. *)
From Coq Require Import Reals ZArith Arith Bool Lra Lia String.
From Coquelicot Require Import Coquelicot.
From Coq Require Import List Sorting.Sorted.
From Verif.Model Require Import Base Util Num Gauss Kernel.
From Verif.Spec Require Import SKernel.
From Verif.Proofs Require Import BaseFacts UtilFacts.
Import ListNotations.
Open Scope R_scope.
Notation length := List.length.

Lemma Rltb_spec : forall a b, Rltb a b = true <-> a < b.
Proof. intros. unfold Rltb. destruct (Rlt_dec a b); split; intros; auto; discriminate. Qed.
Lemma Rltb_false : forall a b, Rltb a b = false <-> b <= a.
Proof. intros. unfold Rltb. destruct (Rlt_dec a b); split; intros; auto; try discriminate; lra. Qed.
Lemma Rleb_spec : forall a b, Rleb a b = true <-> a <= b.
Proof. intros. unfold Rleb. destruct (Rle_dec a b); split; intros; auto; discriminate. Qed.
Lemma Rleb_false : forall a b, Rleb a b = false <-> b < a.
Proof. intros. unfold Rleb. destruct (Rle_dec a b); split; intros; auto; try discriminate; lra. Qed.
Lemma Reqb_true : forall a, Reqb a a = true.
Proof. intros. unfold Reqb. destruct (Req_EM_T a a); auto. Qed.
Lemma Reqb_false : forall a b, a <> b -> Reqb a b = false.
Proof. intros. unfold Reqb. destruct (Req_EM_T a b); auto; contradiction. Qed.

Lemma exp_le_mono : forall a b, a <= b -> exp a <= exp b.
Proof. intros a b [H| ->]; [left; now apply exp_increasing|right; reflexivity]. Qed.

Lemma tiny_pos : 0 < / 10 ^ 200.
Proof. apply Rinv_0_lt_compat, pow_lt. lra. Qed.

(** ** Domain checks *)
Lemma all_between_true : forall lo hi l,
  all_between lo hi l = true <-> exists rs, l = map Fin rs /\ Forall (fun r => lo <= r <= hi) rs.
Proof.
  intros lo hi l. unfold all_between. rewrite andb_true_iff, !forallb_forall. split.
  - intros [H1 H2]. exists (fins l). induction l as [|a l IH]; [split; [reflexivity|constructor]|].
    assert (Ha1 := H1 a (or_introl eq_refl)). assert (Ha2 := H2 a (or_introl eq_refl)).
    destruct IH as [E F]; [intros; apply H1; now right|intros; apply H2; now right|].
    unfold xgeb in Ha1. destruct a as [r| | |]; cbn in Ha1, Ha2; try discriminate.
    apply Rleb_spec in Ha1. apply Rleb_spec in Ha2. split.
    + cbn. f_equal. exact E.
    + constructor; auto.
  - intros (rs & -> & H). rewrite Forall_forall in H.
    split; intros a Ha; apply in_map_iff in Ha; destruct Ha as (r & <- & Hr); cbn; apply Rleb_spec; apply H; auto.
Qed.

Lemma fins_map : forall rs, fins (map Fin rs) = rs.
Proof. intros. unfold fins. rewrite map_map. apply map_id. Qed.

Lemma check_domain_cases : forall lo hi x y,
  (check_domain lo hi x y = Ok tt /\ exists xs ys, x = map Fin xs /\ y = map Fin ys /\
     Forall (fun r => lo <= r <= hi) xs /\ Forall (fun r => lo <= r <= hi) ys) \/
  (check_domain lo hi x y = Raise ValueError /\
     ~ (exists xs ys, x = map Fin xs /\ y = map Fin ys /\
        Forall (fun r => lo <= r <= hi) xs /\ Forall (fun r => lo <= r <= hi) ys)).
Proof.
  intros lo hi x y. unfold check_domain.
  destruct (all_between lo hi x) eqn:Ex; destruct (all_between lo hi y) eqn:Ey; cbn [negb].
  - left. split; auto. apply all_between_true in Ex. apply all_between_true in Ey.
    destruct Ex as (xs & -> & Hx). destruct Ey as (ys & -> & Hy). exists xs, ys. auto.
  - right. split; auto. intros (xs & ys & _ & -> & _ & Hy).
    assert (all_between lo hi (map Fin ys) = true) by (apply all_between_true; eauto). congruence.
  - right. split; auto. intros (xs & ys & -> & _ & Hx & _).
    assert (all_between lo hi (map Fin xs) = true) by (apply all_between_true; eauto). congruence.
  - right. split; auto. intros (xs & ys & -> & _ & Hx & _).
    assert (all_between lo hi (map Fin xs) = true) by (apply all_between_true; eauto). congruence.
Qed.

Lemma check_domain_ok : forall lo hi xs ys,
  Forall (fun r => lo <= r <= hi) xs -> Forall (fun r => lo <= r <= hi) ys ->
  check_domain lo hi (map Fin xs) (map Fin ys) = Ok tt.
Proof.
  intros. destruct (check_domain_cases lo hi (map Fin xs) (map Fin ys)) as [[? _]|[_ H1]]; auto.
  exfalso. apply H1. exists xs, ys. auto.
Qed.

(** ** Values *)
Section Values.
Variable f : tfun.
Hypothesis Hf : tfun_ok f.

Lemma exp_half : forall lam y, 0 < 1 + exp (- lam * y).
Proof. intros. generalize (exp_pos (- lam * y)). lra. Qed.

Lemma logistic_value : forall lam x y xp xm, 0 < lam -> -1 <= x <= 1 ->
  (xp = None \/ xp = Some (1 + x)) -> (xm = None \/ xm = Some (1 - x)) ->
  kernel_at f (Logistic lam) x y xp xm = logistic_formula lam x y.
Proof.
  intros lam x y xp xm Hl Hx Hp Hm. destruct Hf as (He & _).
  unfold kernel_at, compute_uv, k_lambda, logistic_compute, logistic_formula.
  assert (Ep : match xp with None => 1 + x | Some a => a end = 1 + x) by (destruct Hp as [->| ->]; auto).
  assert (Em : match xm with None => 1 - x | Some a => a end = 1 - x) by (destruct Hm as [->| ->]; auto).
  rewrite Ep, Em. assert (Ha := Rabs_pos (lam * y)).
  destruct (Rltb 0 (lam * y)) eqn:E.
  - apply Rltb_spec in E. rewrite (Rabs_right (lam * y)) in * by lra.
    rewrite !He by nra. f_equal; [|f_equal]; try f_equal; field.
  - apply Rltb_false in E. rewrite (Rabs_left1 (lam * y)) in * by lra.
    rewrite !He by nra.
    replace (- lam * y * (x + 1) / 2) with (- (lam * y) + (- - (lam * y) * (/ 2 * (1 - x)))) by field.
    replace (- - (lam * y)) with (lam * y) by ring. replace (- lam * y) with (- (lam * y)) by ring.
    rewrite exp_plus, exp_Ropp. assert (Hp0 := exp_pos (lam * y)).
    field. split; [|lra]. lra.
Qed.

Lemma logistic_bounds : forall lam x y, 0 < lam -> -1 <= x <= 1 -> -1 <= y <= 1 -> 0 < logistic_formula lam x y <= 1.
Proof.
  intros lam x y Hl Hx Hy. unfold logistic_formula. assert (H1 := exp_half lam y). split.
  - apply Rdiv_lt_0_compat; auto. apply exp_pos.
  - apply Rmult_le_reg_r with (1 + exp (- lam * y)); auto. unfold Rdiv.
    rewrite Rmult_assoc, Rinv_l, Rmult_1_r, Rmult_1_l by lra.
    destruct (Rle_dec 0 y).
    + assert (exp (- lam * y * (x + 1) * / 2) <= exp 0). { apply exp_le_mono. assert (0 <= lam * y) by nra. nra. }
      rewrite exp_0 in H. generalize (exp_pos (- lam * y)). lra.
    + assert (exp (- lam * y * (x + 1) * / 2) <= exp (- lam * y)).
      { apply exp_le_mono. assert (0 <= lam * - y) by nra. nra. }
      lra.
Qed.

Lemma exp_lt_1 : forall t, 0 < t -> exp (- t) < 1.
Proof. intros. rewrite <- exp_0. apply exp_increasing. lra. Qed.

(** exp(-u v) / (1 - exp(-v)) is the same written with either sign of v. *)
Lemma bose_swap : forall lam x y, y <> 0 -> 0 < lam -> bose_formula lam x y = bose_formula lam (- x) (- y).
Proof.
  intros lam x y Hy Hl. unfold bose_formula.
  replace (- lam * y * (x + 1) / 2) with (- (lam * y) + (- lam * - y * (- x + 1) / 2)) by field.
  replace (- lam * - y) with (lam * y) by ring. replace (- lam * y) with (- (lam * y)) by ring.
  rewrite exp_plus, exp_Ropp. assert (H := exp_pos (lam * y)).
  assert (exp (lam * y) <> 1).
  { intros E. rewrite <- exp_0 in E. apply exp_inv in E. nra. }
  field. split; lra.
Qed.

Lemma bose_value : forall lam x y xp xm, 0 < lam -> -1 <= x <= 1 -> / 10 ^ 200 <= lam * Rabs y ->
  (xp = None \/ xp = Some (1 + x)) -> (xm = None \/ xm = Some (1 - x)) ->
  kernel_at f (RegBose lam) x y xp xm = bose_formula lam x y.
Proof.
  intros lam x y xp xm Hl Hx Hy Hp Hm. destruct Hf as (He & Hem & _).
  unfold kernel_at, compute_uv, k_lambda, bose_compute.
  assert (Ep : match xp with None => 1 + x | Some a => a end = 1 + x) by (destruct Hp as [->| ->]; auto).
  assert (Em : match xm with None => 1 - x | Some a => a end = 1 - x) by (destruct Hm as [->| ->]; auto).
  rewrite Ep, Em. rewrite Rabs_mult, (Rabs_right lam) by lra.
  assert (Hn : Rleb (/ 10 ^ 200) (lam * Rabs y) = true) by (now apply Rleb_spec). rewrite Hn.
  assert (Ht := tiny_pos). assert (Ha := Rabs_pos y).
  assert (Hpos : forall z, 0 < z -> exp (- z) - 1 <> 0).
  { intros z Hz. generalize (exp_lt_1 z Hz). lra. }
  destruct (Rleb 0 (lam * y)) eqn:E.
  - apply Rleb_spec in E. assert (Hy0 : 0 < y). { destruct (Rle_lt_or_eq_dec 0 y); [nra|auto|subst; rewrite Rabs_R0 in Hy; lra]. }
    rewrite (Rabs_right y) in * by lra. rewrite He by nra. rewrite Hem by nra.
    unfold bose_formula. replace (- (lam * y) * (/ 2 * (1 + x))) with (- lam * y * (x + 1) / 2) by field.
    replace (- (lam * y)) with (- lam * y) by ring. generalize (Hpos (lam * y) ltac:(nra)).
    replace (- (lam * y)) with (- lam * y) by ring. intros. field. repeat split; lra.
  - apply Rleb_false in E. assert (Hy0 : y < 0) by nra.
    rewrite (Rabs_left y) in * by lra. rewrite He by nra. rewrite Hem by nra.
    rewrite bose_swap by lra. unfold bose_formula.
    replace (- (lam * - y) * (/ 2 * (1 - x))) with (- lam * - y * (- x + 1) / 2) by field.
    replace (- (lam * - y)) with (- lam * - y) by ring. generalize (Hpos (lam * - y) ltac:(nra)).
    replace (- (lam * - y)) with (- lam * - y) by ring. intros. field. repeat split; lra.
Qed.

Lemma bose_pos : forall lam x y, 0 < lam -> y <> 0 -> 0 < bose_formula lam x y.
Proof.
  assert (P : forall lam x y, 0 < lam -> 0 < y -> 0 < bose_formula lam x y).
  { intros lam x y Hl Hy. unfold bose_formula. apply Rdiv_lt_0_compat.
    - apply Rmult_lt_0_compat; auto. apply exp_pos.
    - generalize (exp_lt_1 (lam * y) ltac:(nra)). replace (- (lam * y)) with (- lam * y) by ring. lra. }
  intros lam x y Hl Hy. destruct (Rlt_dec 0 y); auto. rewrite bose_swap by auto. apply P; lra.
Qed.

(** The value in the tiny branch. *)
Lemma bose_tiny_value : forall lam x y xp xm, 0 < lam -> -1 <= x <= 1 -> lam * Rabs y < / 10 ^ 200 ->
  (xp = None \/ xp = Some (1 + x)) -> (xm = None \/ xm = Some (1 - x)) ->
  kernel_at f (RegBose lam) x y xp xm =
  exp (- (lam * Rabs y) * (/ 2 * (if Rleb 0 y then 1 + x else 1 - x))) / lam.
Proof.
  intros lam x y xp xm Hl Hx Hy Hp Hm. destruct Hf as (He & Hem & _).
  unfold kernel_at, compute_uv, k_lambda, bose_compute.
  assert (Ep : match xp with None => 1 + x | Some a => a end = 1 + x) by (destruct Hp as [->| ->]; auto).
  assert (Em : match xm with None => 1 - x | Some a => a end = 1 - x) by (destruct Hm as [->| ->]; auto).
  rewrite Ep, Em. rewrite Rabs_mult, (Rabs_right lam) by lra.
  assert (Hn : Rleb (/ 10 ^ 200) (lam * Rabs y) = false) by (now apply Rleb_false). rewrite Hn.
  assert (Ha := Rabs_pos y).
  replace (Rleb 0 (lam * y)) with (Rleb 0 y).
  2:{ destruct (Rleb 0 y) eqn:E; symmetry; [apply Rleb_spec|apply Rleb_false];
      [apply Rleb_spec in E|apply Rleb_false in E]; nra. }
  assert (Ht : 0 <= lam * Rabs y) by nra.
  destruct (Rleb 0 y); rewrite He by nra; field; lra.
Qed.

Lemma bose_tiny : forall lam x y xp xm, 0 < lam -> -1 <= x <= 1 -> lam * Rabs y < / 10 ^ 200 ->
  (xp = None \/ xp = Some (1 + x)) -> (xm = None \/ xm = Some (1 - x)) ->
  0 < kernel_at f (RegBose lam) x y xp xm <= / lam /\
  (y = 0 -> kernel_at f (RegBose lam) x y xp xm = / lam) /\
  (y <> 0 -> 0 <= bose_formula lam x y - kernel_at f (RegBose lam) x y xp xm <= / 10 ^ 200 / lam).
Proof.
  intros lam x y xp xm Hl Hx Hy Hp Hm. rewrite (bose_tiny_value lam x y xp xm) by auto.
  assert (Ha := Rabs_pos y). assert (Hli : 0 < / lam) by (now apply Rinv_0_lt_compat).
  set (w := if Rleb 0 y then 1 + x else 1 - x). assert (Hw : 0 <= w <= 2) by (unfold w; destruct (Rleb 0 y); lra).
  set (e := exp (- (lam * Rabs y) * (/ 2 * w))). assert (He0 : 0 < e) by apply exp_pos.
  assert (He1 : e <= 1).
  { unfold e. rewrite <- exp_0. apply exp_le_mono. assert (0 <= lam * Rabs y) by nra. nra. }
  split; [split|split].
  - apply Rdiv_lt_0_compat; auto.
  - unfold Rdiv. rewrite <- (Rmult_1_l (/ lam)) at 2. apply Rmult_le_compat_r; lra.
  - intros ->. unfold e. rewrite Rabs_R0. replace (- (lam * 0) * (/ 2 * w)) with 0 by ring. rewrite exp_0. field. lra.
  - intros Hy0.
    assert (Ef : bose_formula lam x y = e / lam * (lam * Rabs y / (1 - exp (- (lam * Rabs y))))).
    { destruct (Rleb 0 y) eqn:E.
      - apply Rleb_spec in E. unfold e, w. rewrite (Rabs_right y) by lra. unfold bose_formula.
        generalize (exp_lt_1 (lam * y) ltac:(nra)). intros.
        replace (- (lam * y) * (/ 2 * (1 + x))) with (- lam * y * (x + 1) / 2) by field.
        replace (- (lam * y)) with (- lam * y) in * by ring. field. split; lra.
      - apply Rleb_false in E. unfold e, w. rewrite (Rabs_left y) by lra. rewrite bose_swap by lra. unfold bose_formula.
        generalize (exp_lt_1 (lam * - y) ltac:(nra)). intros.
        replace (- (lam * - y) * (/ 2 * (1 - x))) with (- lam * - y * (- x + 1) / 2) by field.
        replace (- (lam * - y)) with (- lam * - y) in * by ring. field. split; lra. }
    rewrite Ef. set (t := lam * Rabs y) in *.
    assert (Ht : 0 < t). { unfold t. apply Rmult_lt_0_compat; auto. now apply Rabs_pos_lt. }
    assert (Hx1 := exp_lt_1 t Ht).
    assert (Hx2 : 1 + - t < exp (- t)) by (apply exp_ineq1; lra).
    assert (Hx3 : exp (- t) * (1 + t) <= 1).
    { rewrite exp_Ropp. assert (1 + t < exp t) by (apply exp_ineq1; lra).
      apply Rmult_le_reg_l with (exp t); [apply exp_pos|]. rewrite <- Rmult_assoc, Rinv_r by (generalize (exp_pos t); lra). lra. }
    assert (Q : 1 <= t / (1 - exp (- t)) <= 1 + t).
    { split; apply Rmult_le_reg_r with (1 - exp (- t)); try lra; unfold Rdiv; rewrite Rmult_assoc, Rinv_l by lra; lra. }
    assert (Hel : 0 < e / lam <= / lam).
    { split; [apply Rdiv_lt_0_compat; auto|]. unfold Rdiv. rewrite <- (Rmult_1_l (/ lam)) at 2. apply Rmult_le_compat_r; lra. }
    set (q := t / (1 - exp (- t))) in *. set (h := e / lam) in *. unfold Rdiv.
    assert (h * (q - 1) <= / lam * t) by (apply Rmult_le_compat; lra).
    assert (/ lam * t <= / lam * / 10 ^ 200) by (apply Rmult_le_compat_l; lra).
    split; [assert (0 <= h * (q - 1)) by (apply Rmult_le_pos; lra)|]; lra.
Qed.

End Values.
