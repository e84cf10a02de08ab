(** Calls of kernels and of symmetrised kernels. *)
From Coq Require Import Reals ZArith Arith Bool Lra Lia Ascii String.
From Coquelicot Require Import Coquelicot.
From Coq Require Import List Sorting.Sorted.
From Verif.Model Require Import Base Util Num Gauss Kernel.
From Verif.Spec Require Import SKernel.
From Verif.Proofs Require Import BaseFacts UtilFacts KernelFacts.
Import ListNotations.
Open Scope R_scope.
Notation length := List.length.

(** Consistent distances. *)
Definition dist_ok (f : R -> R) (xs : list R) (d : option (list R)) : Prop :=
  d = None \/ d = Some (map f xs).

Lemma at_row_dist : forall f xs d i, dist_ok f xs d -> (i < length xs)%nat ->
  at_row d i = None \/ at_row d i = Some (f (nth i xs 0)).
Proof.
  intros f xs d i [->| ->] Hi; [left; reflexivity|right]. cbn. f_equal.
  rewrite (nth_indep _ 0 (f 0)) by (now rewrite map_length). apply map_nth.
Qed.

Lemma kernel_at_dist : forall f k x y xp xm, (xp = None \/ xp = Some (1 + x)) -> (xm = None \/ xm = Some (1 - x)) ->
  kernel_at f k x y xp xm = kernel_at f k x y None None.
Proof. intros f k x y xp xm [->| ->] [->| ->]; reflexivity. Qed.

Lemma has_value_iff : forall f k x y r, -1 <= x <= 1 -> -1 <= y <= 1 ->
  (has_value f k x y r <-> r = kernel_at f k x y None None).
Proof.
  intros. unfold has_value, kernel_call.
  change [Fin x] with (map Fin [x]). change [Fin y] with (map Fin [y]).
  rewrite (check_domain_ok (-1) 1 [x] [y]) by (constructor; [lra|constructor]).
  cbn [bind fins map seq length nth at_row]. split; [intros E; injection E; auto|intros ->; reflexivity].
Qed.

(** An array call is element-wise. *)
Lemma call_elementwise : forall f k xs ys xp xm,
  Forall (fun x => -1 <= x <= 1) xs -> Forall (fun y => -1 <= y <= 1) ys ->
  dist_ok (fun x => 1 + x) xs xp -> dist_ok (fun x => 1 - x) xs xm ->
  exists M, kernel_call f k (map Fin xs) (map Fin ys) xp xm = Ok M /\ length M = length xs /\
    forall i x, nth_error xs i = Some x -> exists row, nth_error M i = Some row /\ length row = length ys /\
      forall j y, nth_error ys j = Some y -> exists r, nth_error row j = Some r /\ has_value f k x y r.
Proof.
  intros f k xs ys xp xm Hx Hy Hp Hm. unfold kernel_call.
  rewrite (check_domain_ok (-1) 1 xs ys) by auto. cbn [bind]. rewrite !fins_map, map_length. eexists. split; [reflexivity|].
  rewrite map_length, seq_length. split; auto. intros i x Ei.
  assert (Hi : (i < length xs)%nat) by (apply nth_error_Some; congruence).
  rewrite (nth_error_nth' _ []) by (now rewrite map_length, seq_length).
  eexists. split; [reflexivity|].
  rewrite (nth_indep _ [] (map (fun b => kernel_at f k (nth 0 xs 0) b (at_row xp 0) (at_row xm 0)) ys)) by (now rewrite map_length, seq_length).
  rewrite (map_nth (fun i0 => map (fun b => kernel_at f k (nth i0 xs 0) b (at_row xp i0) (at_row xm i0)) ys)).
  rewrite seq_nth by auto. rewrite map_length. split; auto. intros j y Ej. cbn [Nat.add].
  exists (kernel_at f k x y None None). split.
  - rewrite nth_error_map, Ej. cbn [option_map]. f_equal.
    assert (D1 := at_row_dist (fun x => 1 + x) xs xp i Hp Hi). assert (D2 := at_row_dist (fun x => 1 - x) xs xm i Hm Hi).
    rewrite (nth_error_nth xs i 0 Ei) in *. now apply kernel_at_dist.
  - apply has_value_iff; auto; [rewrite Forall_forall in Hx; apply Hx|rewrite Forall_forall in Hy; apply Hy];
      eapply nth_error_In; eauto.
Qed.

Lemma call_rejects : forall f k x y xp xm,
  ~ (exists xs ys, x = map Fin xs /\ y = map Fin ys /\
       Forall (fun r => -1 <= r <= 1) xs /\ Forall (fun r => -1 <= r <= 1) ys) ->
  kernel_call f k x y xp xm = Raise ValueError.
Proof.
  intros. unfold kernel_call. destruct (check_domain_cases (-1) 1 x y) as [[_ ?]|[-> _]]; [contradiction|reflexivity].
Qed.

Lemma logistic_has_value : forall f lam x y r, tfun_ok f -> 0 < lam -> -1 <= x <= 1 -> -1 <= y <= 1 ->
  (has_value f (Logistic lam) x y r <-> r = logistic_formula lam x y) /\ 0 < logistic_formula lam x y <= 1.
Proof.
  intros. split; [|now apply logistic_bounds]. rewrite has_value_iff, (logistic_value f) by auto. reflexivity.
Qed.

Lemma bose_has_value : forall f lam x y, tfun_ok f -> 0 < lam -> -1 <= x <= 1 -> -1 <= y <= 1 ->
  exists r, has_value f (RegBose lam) x y r /\ 0 < r /\
    (/ 10 ^ 200 <= lam * Rabs y -> r = bose_formula lam x y) /\
    (y = 0 -> r = / lam) /\
    (y <> 0 -> 0 <= bose_formula lam x y - r <= / 10 ^ 200 / lam).
Proof.
  intros f lam x y Hf Hl Hx Hy. exists (kernel_at f (RegBose lam) x y None None).
  split; [now apply has_value_iff|].
  destruct (Rlt_le_dec (lam * Rabs y) (/ 10 ^ 200)) as [H|H].
  - destruct (bose_tiny f Hf lam x y None None) as ((P & _) & Z & D); auto.
    split; auto. split; [intros; lra|]. auto.
  - rewrite (bose_value f) by auto. assert (Hy0 : y <> 0) by (intros ->; rewrite Rabs_R0 in H; generalize tiny_pos; lra).
    split; [now apply bose_pos|]. split; auto. split; [contradiction|]. intros _.
    assert (0 <= / 10 ^ 200 / lam) by (apply Rlt_le, Rdiv_lt_0_compat; [apply tiny_pos|auto]). lra.
Qed.

Lemma centrosymmetric_at : forall f k x y, tfun_ok f -> 0 < k_lambda k -> -1 <= x <= 1 ->
  kernel_at f k (- x) (- y) None None = kernel_at f k x y None None.
Proof.
  intros f [lam|lam] x y Hf Hl Hx; cbn [k_lambda] in Hl.
  - rewrite !(logistic_value f Hf) by (auto; lra). unfold logistic_formula.
    replace (- lam * y * (x + 1) / 2) with (- (lam * y) + - lam * - y * (- x + 1) / 2) by field.
    replace (- lam * - y) with (lam * y) by ring. replace (- lam * y) with (- (lam * y)) by ring.
    rewrite exp_plus, exp_Ropp. assert (H := exp_pos (lam * y)). field. split; lra.
  - destruct (Rlt_le_dec (lam * Rabs y) (/ 10 ^ 200)) as [H|H].
    + rewrite !(bose_tiny_value f Hf) by (auto; rewrite ?Rabs_Ropp; auto; lra). rewrite Rabs_Ropp.
      destruct (Req_dec y 0) as [->|Hy].
      * rewrite Rabs_R0. replace (lam * 0) with 0 by ring. rewrite Ropp_0, !Rmult_0_l. reflexivity.
      * f_equal. f_equal. f_equal. f_equal.
        destruct (Rleb 0 y) eqn:E1; destruct (Rleb 0 (- y)) eqn:E2; try apply Rleb_spec in E1; try apply Rleb_spec in E2;
          try apply Rleb_false in E1; try apply Rleb_false in E2; lra.
    + rewrite !(bose_value f Hf) by (auto; rewrite ?Rabs_Ropp; auto; lra). symmetry. apply bose_swap; auto.
      intros ->. rewrite Rabs_R0 in H. generalize tiny_pos. lra.
Qed.

Lemma centrosymmetric : forall f k x y r, tfun_ok f -> 0 < k_lambda k ->
  (has_value f k x y r <-> has_value f k (- x) (- y) r).
Proof.
  assert (W : forall f k x y r, has_value f k x y r -> -1 <= x <= 1 /\ -1 <= y <= 1).
  { intros f k x y r H. unfold has_value, kernel_call in H.
    destruct (check_domain_cases (-1) 1 [Fin x] [Fin y]) as [[_ H1]|[E _]]; [|rewrite E in H; discriminate].
    destruct H1 as (xs & ys & Ex & Ey & Hx & Hy).
    destruct xs as [|a [|]]; try discriminate. destruct ys as [|b [|]]; try discriminate.
    injection Ex as <-. injection Ey as <-. inversion Hx; inversion Hy; auto. }
  assert (S : forall f k x y r, tfun_ok f -> 0 < k_lambda k -> has_value f k x y r -> has_value f k (- x) (- y) r).
  { intros f k x y r Hf Hl H. destruct (W _ _ _ _ _ H) as [Hx Hy].
    apply has_value_iff in H; auto. apply has_value_iff; try lra. rewrite H. symmetry. now apply centrosymmetric_at. }
  intros. split; intros; [now apply S|]. rewrite <- (Ropp_involutive x), <- (Ropp_involutive y). now apply S.
Qed.

(** ** Symmetrised kernels *)
Lemma symmetrized_ok : forall k sign, (sign = 1 \/ sign = -1) -> exists r, get_symmetrized k sign = Ok r.
Proof.
  intros k sign H. unfold get_symmetrized, reduced_init.
  assert (E : Reqb (Rabs sign) 1 = true).
  { replace (Rabs sign) with 1; [apply Reqb_true|]. unfold Rabs. destruct (Rcase_abs sign); lra. }
  rewrite E. destruct (Reqb sign (-1)); eauto.
Qed.

Lemma symmetrized_bad : forall k sign, sign <> 1 -> sign <> -1 -> get_symmetrized k sign = Raise ValueError.
Proof.
  intros k sign H1 H2. unfold get_symmetrized, reduced_init. rewrite Reqb_false with (a := sign) by auto.
  rewrite Reqb_false; auto. intros E. unfold Rabs in E. destruct (Rcase_abs sign); lra.
Qed.

Lemma reduced_value : forall f k sign r x y, tfun_ok f -> 0 < k_lambda k -> get_symmetrized k sign = Ok r ->
  0 <= x <= 1 -> 0 <= y <= 1 -> forall xm, (xm = None \/ xm = Some (1 - x)) ->
  reduced_at f r x y x xm = kernel_at f k x y None None + sign * kernel_at f k x (- y) None None.
Proof.
  intros f k sign r x y Hf Hl Hr Hx Hy xm Hm.
  assert (Hs : (sign = 1 /\ r = Reduced k 1 false) \/ (sign = -1 /\ r = Reduced k (-1) true)).
  { unfold get_symmetrized, reduced_init in Hr. destruct (Reqb (Rabs sign) 1) eqn:E.
    - unfold Reqb in E. destruct (Req_EM_T (Rabs sign) 1) as [E1|]; [|discriminate].
      assert (sign = 1 \/ sign = -1) as [->| ->].
      { unfold Rabs in E1. destruct (Rcase_abs sign); lra. }
      + rewrite Reqb_false in Hr by lra. left. split; auto. now injection Hr as <-.
      + rewrite Reqb_true in Hr. right. split; auto. now injection Hr as <-.
    - destruct (Reqb sign (-1)); discriminate. }
  assert (P : reduced_plain_at f r x y x xm = kernel_at f k x y None None + sign * kernel_at f k x (- y) None None).
  { unfold reduced_plain_at. destruct Hs as [[-> ->]|[-> ->]]; cbn [rinner rsign].
    - rewrite Reqb_true. rewrite !kernel_at_dist with (xp := Some (1 + x)) by auto. ring.
    - rewrite Reqb_false by lra. rewrite !kernel_at_dist with (xp := Some (1 + x)) by auto. ring. }
  unfold reduced_at. rewrite P. destruct Hs as [[-> ->]|[-> ->]]; cbn [rinner rsign rclosed]; auto.
  destruct Hf as (He & Hm1 & Hsh & Hch). assert (Hf : tfun_ok f) by (repeat split; auto).
  destruct k as [lam|lam]; cbn [k_lambda] in Hl.
  - unfold logistic_odd_fix. set (v := lam / 2 * y).
    assert (Hv : 0 <= v) by (unfold v; nra). assert (Hxv : 0 <= x * v) by nra.
    destruct (Rltb (x * v) 1) eqn:E1; destruct (Rltb v 85) eqn:E2; cbn [andb]; auto.
    apply Rltb_spec in E1. apply Rltb_spec in E2.
    rewrite (Rmult_comm v x), Hsh, Hch by lra.
    rewrite !(logistic_value f Hf) by (auto; lra). unfold logistic_formula, sinh, cosh.
    replace (- lam * y * (x + 1) / 2) with (- (x * v) + - v) by (unfold v; field).
    replace (- lam * - y * (x + 1) / 2) with (x * v + v) by (unfold v; field).
    replace (- lam * y) with (- v + - v) by (unfold v; field). replace (- lam * - y) with (v + v) by (unfold v; field).
    rewrite !exp_plus, !exp_Ropp. assert (A := exp_pos v). assert (B := exp_pos (x * v)).
    field. repeat split; try nra.
  - unfold bose_odd_fix. set (v := lam / 2 * y).
    assert (Ht := tiny_pos).
    destruct (Rltb (x * v) 1) eqn:E1; destruct (Rltb (/ 10 ^ 200) v) eqn:E3; destruct (Rltb v 85) eqn:E2; cbn [andb]; auto.
    apply Rltb_spec in E1. apply Rltb_spec in E2. apply Rltb_spec in E3.
    assert (Hxv : 0 <= x * v) by nra. rewrite !Hsh by lra.
    assert (Hv2 : lam * y = 2 * v) by (unfold v; field). assert (Hy0 : 0 < y) by nra.
    rewrite !(bose_value f Hf) by (auto; rewrite ?Rabs_Ropp; try rewrite (Rabs_right y) by lra; lra). unfold bose_formula, sinh.
    replace (- lam * y * (x + 1) / 2) with (- (x * v) + - v) by (unfold v; field).
    replace (- lam * - y * (x + 1) / 2) with (x * v + v) by (unfold v; field).
    replace (- lam * y) with (- v + - v) by (unfold v; field). replace (- lam * - y) with (v + v) by (unfold v; field).
    rewrite !exp_plus, !exp_Ropp. assert (A := exp_pos v). assert (B := exp_pos (x * v)).
    assert (C : 1 < exp v) by (rewrite <- exp_0; apply exp_increasing; lra).
    field. repeat split; try nra.
Qed.

Lemma has_reduced_value_iff : forall f r x y v, 0 <= x <= 1 -> 0 <= y <= 1 ->
  (has_reduced_value f r x y v <-> v = reduced_at f r x y x (Some (1 - x))).
Proof.
  intros. unfold has_reduced_value, reduced_call.
  change [Fin x] with (map Fin [x]). change [Fin y] with (map Fin [y]).
  rewrite (check_domain_ok 0 1 [x] [y]) by (constructor; [lra|constructor]).
  cbn [bind fins map seq length nth at_row]. split; [intros E; injection E; auto|intros ->; reflexivity].
Qed.

Lemma symmetrized_value : forall f k sign r x y a b, tfun_ok f -> 0 < k_lambda k -> get_symmetrized k sign = Ok r ->
  0 <= x <= 1 -> 0 <= y <= 1 -> has_value f k x y a -> has_value f k x (- y) b ->
  has_reduced_value f r x y (a + sign * b).
Proof.
  intros f k sign r x y a b Hf Hl Hr Hx Hy Ha Hb. apply has_reduced_value_iff; auto.
  apply has_value_iff in Ha; try lra. apply has_value_iff in Hb; try lra. subst.
  symmetry. apply reduced_value; auto.
Qed.

Lemma symmetrized_errors : forall f r x y xm,
  (forall xs ys, x = map Fin xs -> y = map Fin ys ->
     Forall (fun a => 0 <= a <= 1) xs -> Forall (fun a => 0 <= a <= 1) ys ->
     reduced_call f r x y None xm = Raise TypeError) /\
  (~ (exists xs ys, x = map Fin xs /\ y = map Fin ys /\
       Forall (fun r => 0 <= r <= 1) xs /\ Forall (fun r => 0 <= r <= 1) ys) ->
   forall xp, reduced_call f r x y xp xm = Raise ValueError).
Proof.
  intros f r x y xm. split.
  - intros xs ys -> -> Hx Hy. unfold reduced_call. rewrite check_domain_ok by auto. reflexivity.
  - intros H xp. unfold reduced_call. destruct (check_domain_cases 0 1 x y) as [[_ ?]|[-> _]]; [contradiction|reflexivity].
Qed.

(** Array calls of reduced kernels are element-wise. *)
Lemma reduced_elementwise : forall f r xs ys,
  Forall (fun x => 0 <= x <= 1) xs -> Forall (fun y => 0 <= y <= 1) ys ->
  exists M, reduced_call f r (map Fin xs) (map Fin ys) (Some xs) (Some (map (fun x => 1 - x) xs)) = Ok M /\
    length M = length xs /\
    forall i x, nth_error xs i = Some x -> exists row, nth_error M i = Some row /\ length row = length ys /\
      forall j y, nth_error ys j = Some y -> exists v, nth_error row j = Some v /\ has_reduced_value f r x y v.
Proof.
  intros f r xs ys Hx Hy. unfold reduced_call.
  rewrite (check_domain_ok 0 1 xs ys) by auto. cbn [bind]. rewrite !fins_map, map_length. eexists. split; [reflexivity|].
  rewrite map_length, seq_length. split; auto. intros i x Ei.
  assert (Hi : (i < length xs)%nat) by (apply nth_error_Some; congruence).
  assert (En := nth_error_nth xs i 0 Ei).
  rewrite nth_error_map. rewrite (nth_error_nth' _ 0%nat) by (now rewrite seq_length). rewrite seq_nth by auto.
  cbn [option_map Nat.add]. eexists. split; [reflexivity|]. rewrite map_length. split; auto. intros j y Ej.
  exists (reduced_at f r x y x (Some (1 - x))). rewrite nth_error_map, Ej, En. cbn [option_map]. split.
  - f_equal. f_equal. destruct (at_row_dist (fun x => 1 - x) xs (Some (map (fun x => 1 - x) xs)) i) as [E|E]; auto.
    + now right.
    + discriminate.
    + rewrite E, En. reflexivity.
  - apply has_reduced_value_iff; auto; [rewrite Forall_forall in Hx; apply Hx|rewrite Forall_forall in Hy; apply Hy];
      eapply nth_error_In; eauto.
Qed.

(** ** Weight functions *)
Lemma stat_FB : forall st, stat_in_FB st = true <-> In st [""; "F"; "B"; "FB"]%string.
Proof.
  intros st. unfold stat_in_FB. split.
  - destruct st as [|a [|b [|c st]]]; cbn [String.index].
    + intros _. now left.
    + intros H.
      destruct (Ascii.ascii_dec a "F"%char) as [->|N1]; [right; now left|].
      destruct (Ascii.ascii_dec a "B"%char) as [->|N2]; [right; right; now left|].
      cbn in H. destruct (Ascii.ascii_dec a "F"%char); try contradiction.
      destruct (Ascii.ascii_dec a "B"%char); try contradiction. discriminate.
    + intros H. cbn in H.
      destruct (Ascii.ascii_dec a "F"%char) as [->|N1].
      * destruct (Ascii.ascii_dec b "B"%char) as [->|N2]; [right; right; right; now left|].
        discriminate.
      * destruct (Ascii.ascii_dec a "B"%char); discriminate.
    + intros H. cbn in H.
      destruct (Ascii.ascii_dec a "F"%char); destruct (Ascii.ascii_dec b "B"%char);
      destruct (Ascii.ascii_dec a "B"%char); discriminate.
  - intros [<-|[<-|[<-|[<-|[]]]]]; reflexivity.
Qed.

Lemma logistic_weight : forall lam st, 0 < lam ->
  (In st [""; "F"; "B"; "FB"]%string -> exists w, weight_func (Logistic lam) st = Ok w /\
     (st = "F"%string -> forall y, w y = Some 1) /\
     (st <> "F"%string -> forall y, y <> 0 -> exists a, w y = Some a /\ a = 1 / tanh (lam * y / 2) /\
        forall x, a * logistic_formula lam x y = exp (- lam * y * (x + 1) / 2) / (1 - exp (- lam * y)))) /\
  (~ In st [""; "F"; "B"; "FB"]%string -> weight_func (Logistic lam) st = Raise ValueError).
Proof.
  intros lam st Hl. unfold weight_func. split; intros Hs.
  - apply stat_FB in Hs. rewrite Hs. cbn [negb]. destruct (String.eqb st "F") eqn:E.
    + apply String.eqb_eq in E. eexists. split; [reflexivity|]. split; [reflexivity|]. contradiction.
    + apply String.eqb_neq in E. eexists. split; [reflexivity|]. split; [contradiction|]. intros _ y Hy.
      replace (/ 2 * lam * y) with (lam * y / 2) by field. set (t := lam * y / 2).
      assert (Ht : t <> 0) by (unfold t; intros Q; assert (lam * y = 0) by lra; nra).
      assert (A := exp_pos t). assert (B := exp_pos (- t)).
      assert (Hne : exp t <> exp (- t)) by (intros Q; apply exp_inv in Q; lra).
      assert (Htanh : tanh t <> 0).
      { unfold tanh, sinh, cosh. intros Q. apply Hne. unfold Rdiv in Q.
        apply Rmult_integral in Q. destruct Q as [Q|Q]; [lra|].
        exfalso. revert Q. apply Rinv_neq_0_compat. lra. }
      rewrite Reqb_false by auto. eexists. split; [reflexivity|]. split; [reflexivity|]. intros x.
      unfold logistic_formula, tanh, sinh, cosh.
      replace (- lam * y) with (- t + - t) by (unfold t; field). rewrite !exp_plus, !exp_Ropp in *.
      assert (exp t * exp t - 1 <> 0).
      { intros Q. apply Hne. apply Rmult_eq_reg_l with (exp t); try lra. rewrite Rinv_r by lra. lra. }
      field. repeat split; try lra; try nra.
  - destruct (stat_in_FB st) eqn:E; [apply stat_FB in E; contradiction|reflexivity].
Qed.

Lemma bose_weight : forall lam st,
  (st = "B"%string -> exists w, weight_func (RegBose lam) st = Ok w /\ forall y, y <> 0 -> w y = Some (1 / y)) /\
  (st <> "B"%string -> weight_func (RegBose lam) st = Raise ValueError).
Proof.
  intros lam st. unfold weight_func. split.
  - intros ->. rewrite String.eqb_refl. eexists. split; [reflexivity|]. intros y Hy. cbv beta. now rewrite Reqb_false.
  - intros H. apply String.eqb_neq in H. rewrite H. reflexivity.
Qed.

Lemma bose_weight_kernel : forall lam x y, y <> 0 ->
  1 / y * bose_formula lam x y = exp (- lam * y * (x + 1) / 2) / (1 - exp (- lam * y)).
Proof. intros. unfold bose_formula, Rdiv. rewrite Rmult_1_l. rewrite !Rmult_assoc, <- (Rmult_assoc (/ y)), Rinv_l by auto. ring. Qed.

(** ** Kernels in physical variables *)
Lemma logistic_physical : forall beta wmax t w, 0 < beta -> 0 < wmax ->
  logistic_formula (beta * wmax) (2 * t / beta - 1) (w / wmax) = exp (- t * w) / (1 + exp (- beta * w)).
Proof.
  intros. unfold logistic_formula.
  replace (- (beta * wmax) * (w / wmax) * (2 * t / beta - 1 + 1) / 2) with (- t * w) by (field; lra).
  replace (- (beta * wmax) * (w / wmax)) with (- beta * w) by (field; lra). reflexivity.
Qed.

Lemma bose_physical : forall beta wmax t w, 0 < beta -> 0 < wmax ->
  wmax * bose_formula (beta * wmax) (2 * t / beta - 1) (w / wmax) = w * exp (- t * w) / (1 - exp (- beta * w)).
Proof.
  intros. unfold bose_formula.
  replace (- (beta * wmax) * (w / wmax) * (2 * t / beta - 1 + 1) / 2) with (- t * w) by (field; lra).
  replace (- (beta * wmax) * (w / wmax)) with (- beta * w) by (field; lra). unfold Rdiv.
  rewrite <- !Rmult_assoc. rewrite (Rmult_comm wmax w), Rmult_assoc with (r1 := w), Rinv_r by lra. ring.
Qed.

(** The documented sign. *)
Lemma bose_documented : forall f, tfun_ok f ->
  exists lam x y r, 0 < lam /\ has_value f (RegBose lam) x y r /\
    r <> y * exp (- lam * y * (x + 1) / 2) / (exp (- lam * y) - 1).
Proof.
  intros f Hf. exists 1, 0, 1. destruct (bose_has_value f 1 0 1 Hf) as (r & H & Hp & E & _); try lra.
  exists r. split; [lra|]. split; auto. rewrite E in Hp.
  2:{ rewrite Rabs_R1. assert (1 <= 10 ^ 200) by (apply pow_R1_Rle; lra).
      rewrite Rmult_1_l. apply Rle_trans with (/ 1); [apply Rinv_le_contravar|]; lra. }
  rewrite E.
  - unfold bose_formula in *. set (e := exp (- (1) * 1)) in *. assert (e <> 1).
    { unfold e. generalize (exp_lt_1 (1 * 1)). replace (- (1 * 1)) with (- (1) * 1) by ring. intros Q. lra. }
    replace (1 * exp (- (1) * 1 * (0 + 1) / 2) / (e - 1)) with (- (1 * exp (- (1) * 1 * (0 + 1) / 2) / (1 - e))) by (field; lra).
    lra.
  - rewrite Rabs_R1. assert (1 <= 10 ^ 200) by (apply pow_R1_Rle; lra).
    rewrite Rmult_1_l. apply Rle_trans with (/ 1); [apply Rinv_le_contravar|]; lra.
Qed.
