(** C33-C38: kernels; C45: the basis expansion against the kernels. *)
From Coq Require Import Reals ZArith Arith Bool Lra Lia String.
From Coquelicot Require Import Coquelicot.
From Coq Require Import List Sorting.Sorted.
From Verif.Model Require Import Base Util Num Poly FT SVE Basis Kernel.
From Verif.Spec Require Import SPoly SBasis SKernel.
From Verif.Proofs Require Import KernelFacts KernelProps KernelSegs BasisKernel.
Import ListNotations.
Open Scope R_scope.
Notation length := List.length.

(** C33: the value; it needs exponentials of non-positive arguments only. *)
Theorem C33_logistic_formula :
  forall f lam x y r, tfun_ok f -> 0 < lam -> -1 <= x <= 1 -> -1 <= y <= 1 ->
  (has_value f (Logistic lam) x y r <-> r = exp (- lam * y * (x + 1) / 2) / (1 + exp (- lam * y))) /\
  0 < exp (- lam * y * (x + 1) / 2) / (1 + exp (- lam * y)) <= 1.
Proof. exact logistic_has_value. Qed.
Print Assumptions C33_logistic_formula.

(** C33, C34: array calls, with or without distances, are element-wise. *)
Theorem C33_elementwise :
  forall f k xs ys xp xm, Forall (fun x => -1 <= x <= 1) xs -> Forall (fun y => -1 <= y <= 1) ys ->
  (xp = None \/ xp = Some (map (fun x => 1 + x) xs)) -> (xm = None \/ xm = Some (map (fun x => 1 - x) xs)) ->
  exists M, kernel_call f k (map Fin xs) (map Fin ys) xp xm = Ok M /\ length M = length xs /\
    forall i x, nth_error xs i = Some x -> exists row, nth_error M i = Some row /\ length row = length ys /\
      forall j y, nth_error ys j = Some y -> exists r, nth_error row j = Some r /\ has_value f k x y r.
Proof. exact call_elementwise. Qed.
Print Assumptions C33_elementwise.

Theorem C33_outside_rejected :
  forall f k x y xp xm,
  ~ (exists xs ys, x = map Fin xs /\ y = map Fin ys /\
       Forall (fun r => -1 <= r <= 1) xs /\ Forall (fun r => -1 <= r <= 1) ys) ->
  kernel_call f k x y xp xm = Raise ValueError.
Proof. exact call_rejects. Qed.
Print Assumptions C33_outside_rejected.

(** The ranges in which the elementary functions must be right are met by the
    exact functions, and also by functions that return 0 elsewhere. *)
Example C33_hypotheses_met :
  tfun_ok (TFun exp (fun x => exp x - 1) sinh cosh) /\
  tfun_ok (TFun (fun x => if Rle_dec x 0 then exp x else 0) (fun x => if Rle_dec x (- / 10 ^ 200) then exp x - 1 else 0)
                (fun x => if Rlt_dec x 85 then sinh x else 0) (fun x => if Rlt_dec x 85 then cosh x else 0)).
Proof.
  split; [unfold tfun_ok; cbn [f_exp f_expm1 f_sinh f_cosh]; auto|].
  unfold tfun_ok. cbn [f_exp f_expm1 f_sinh f_cosh]. repeat split; intros x Hx.
  - destruct (Rle_dec x 0); [auto|contradiction].
  - destruct (Rle_dec x (- / 10 ^ 200)); [auto|contradiction].
  - destruct (Rlt_dec x 85); [auto|lra].
  - destruct (Rlt_dec x 85); [auto|lra].
Qed.

(** C34 *)
Theorem C34_bose_value :
  forall f lam x y, tfun_ok f -> 0 < lam -> -1 <= x <= 1 -> -1 <= y <= 1 ->
  exists r, has_value f (RegBose lam) x y r /\ 0 < r /\
    (/ 10 ^ 200 <= lam * Rabs y -> r = y * exp (- lam * y * (x + 1) / 2) / (1 - exp (- lam * y))) /\
    (y = 0 -> r = / lam) /\
    (y <> 0 -> 0 <= y * exp (- lam * y * (x + 1) / 2) / (1 - exp (- lam * y)) - r <= / 10 ^ 200 / lam).
Proof. exact bose_has_value. Qed.
Print Assumptions C34_bose_value.

(** C34: the sign in the documentation is wrong. *)
Theorem C34_documented_formula_refuted :
  forall f, tfun_ok f ->
  exists lam x y r, 0 < lam /\ has_value f (RegBose lam) x y r /\
    r <> y * exp (- lam * y * (x + 1) / 2) / (exp (- lam * y) - 1).
Proof. exact bose_documented. Qed.
Print Assumptions C34_documented_formula_refuted.

(** C35 *)
Theorem C35_centrosymmetric :
  forall f k x y r, tfun_ok f -> 0 < k_lambda k -> (has_value f k x y r <-> has_value f k (- x) (- y) r).
Proof. exact centrosymmetric. Qed.
Print Assumptions C35_centrosymmetric.

Example C35_hypotheses_met :
  exists r, has_value (TFun exp (fun x => exp x - 1) sinh cosh) (RegBose 7) (1 / 2) (- 1 / 3) r.
Proof.
  destruct (bose_has_value (TFun exp (fun x => exp x - 1) sinh cosh) 7 (1 / 2) (- 1 / 3)) as (r & H & _);
    try lra; [apply C33_hypotheses_met|eauto].
Qed.

(** C36 *)
Theorem C36_symmetrized_value :
  forall f k sign r x y a b, tfun_ok f -> 0 < k_lambda k -> get_symmetrized k sign = Ok r ->
  0 <= x <= 1 -> 0 <= y <= 1 -> has_value f k x y a -> has_value f k x (- y) b ->
  has_reduced_value f r x y (a + sign * b).
Proof. exact symmetrized_value. Qed.
Print Assumptions C36_symmetrized_value.

Theorem C36_elementwise :
  forall f r xs ys, Forall (fun x => 0 <= x <= 1) xs -> Forall (fun y => 0 <= y <= 1) ys ->
  exists M, reduced_call f r (map Fin xs) (map Fin ys) (Some xs) (Some (map (fun x => 1 - x) xs)) = Ok M /\
    length M = length xs /\
    forall i x, nth_error xs i = Some x -> exists row, nth_error M i = Some row /\ length row = length ys /\
      forall j y, nth_error ys j = Some y -> exists v, nth_error row j = Some v /\ has_reduced_value f r x y v.
Proof. exact reduced_elementwise. Qed.
Print Assumptions C36_elementwise.

Theorem C36_signs :
  forall k sign, (sign = 1 \/ sign = -1 -> exists r, get_symmetrized k sign = Ok r) /\
  (sign <> 1 -> sign <> -1 -> get_symmetrized k sign = Raise ValueError).
Proof. intros. split; [apply symmetrized_ok|apply symmetrized_bad]. Qed.
Print Assumptions C36_signs.

(** C36: without x_plus a call in the domain raises TypeError; outside ValueError. *)
Theorem C36_errors :
  forall f r x y xm,
  (forall xs ys, x = map Fin xs -> y = map Fin ys ->
     Forall (fun a => 0 <= a <= 1) xs -> Forall (fun a => 0 <= a <= 1) ys ->
     reduced_call f r x y None xm = Raise TypeError) /\
  (~ (exists xs ys, x = map Fin xs /\ y = map Fin ys /\
       Forall (fun r => 0 <= r <= 1) xs /\ Forall (fun r => 0 <= r <= 1) ys) ->
   forall xp, reduced_call f r x y xp xm = Raise ValueError).
Proof. exact symmetrized_errors. Qed.
Print Assumptions C36_errors.

(** C37 *)
Theorem C37_logistic_weight :
  forall lam st, 0 < lam ->
  (In st [""; "F"; "B"; "FB"]%string -> exists w, weight_func (Logistic lam) st = Ok w /\
     (st = "F"%string -> forall y, w y = Some 1) /\
     (st <> "F"%string -> forall y, y <> 0 -> exists a, w y = Some a /\ a = 1 / tanh (lam * y / 2) /\
        forall x, a * (exp (- lam * y * (x + 1) / 2) / (1 + exp (- lam * y))) =
                  exp (- lam * y * (x + 1) / 2) / (1 - exp (- lam * y)))) /\
  (~ In st [""; "F"; "B"; "FB"]%string -> weight_func (Logistic lam) st = Raise ValueError).
Proof. exact logistic_weight. Qed.
Print Assumptions C37_logistic_weight.

Theorem C37_bose_weight :
  forall lam st,
  (st = "B"%string -> exists w, weight_func (RegBose lam) st = Ok w /\ forall y, y <> 0 -> w y = Some (1 / y)) /\
  (st <> "B"%string -> weight_func (RegBose lam) st = Raise ValueError).
Proof. exact bose_weight. Qed.
Print Assumptions C37_bose_weight.

Theorem C37_bose_weighted_kernel :
  forall lam x y, y <> 0 ->
  1 / y * (y * exp (- lam * y * (x + 1) / 2) / (1 - exp (- lam * y))) =
  exp (- lam * y * (x + 1) / 2) / (1 - exp (- lam * y)).
Proof. exact bose_weight_kernel. Qed.
Print Assumptions C37_bose_weighted_kernel.

(** C38 *)
Theorem C38_segments_valid :
  forall k, 0 < k_lambda k -> valid_segments (segments_x k) /\ valid_segments (segments_y k).
Proof. exact (fun k _ => segments_valid k). Qed.
Print Assumptions C38_segments_valid.

Theorem C38_symmetrized_segments :
  forall k sign r, 0 < k_lambda k -> get_symmetrized k sign = Ok r ->
  exists hx hy, reduced_segments_x r = Ok hx /\ reduced_segments_y r = Ok hy /\
    hx = filter (fun x => Rleb 0 x) (segments_x k) /\ hy = filter (fun x => Rleb 0 x) (segments_y k) /\
    mirrored hx = segments_x k /\ mirrored hy = segments_y k.
Proof. exact (fun k sign r _ => reduced_segments k sign r). Qed.
Print Assumptions C38_symmetrized_segments.

(** C38: the hinted segments are accepted by the quadrature construction. *)
Theorem C38_accepted_by_quadrature :
  forall k r, 0 < k_lambda k -> exists gx gy, Gauss.piecewise r (segments_x k) = Ok gx /\ Gauss.piecewise r (segments_y k) = Ok gy.
Proof. exact (fun k r _ => segments_accepted k r). Qed.
Print Assumptions C38_accepted_by_quadrature.

Example C38_hypotheses_met : forall lam, (3 <= length (segments_x (Logistic lam)))%nat.
Proof.
  intros lam. destruct (segments_valid (Logistic lam)) as [(H & Hh & Hl & _ & h & L & M) _].
  destruct h; [|lia]. destruct (segments_x (Logistic lam)) as [|a [|b l]]; try discriminate. cbn in Hh, M. injection Hh as Hh. injection M as M. lra.
Qed.

(** C45: the logistic kernel in physical variables is approximated by the basis
    exactly as well as the scaled kernel by the expansion. *)
Theorem C45_logistic_kernel :
  forall compute b, built compute b -> forall t w (f g F G : nat -> R -> R),
  kyp (bkernel b) = 0%Z ->
  0 <= t <= bbeta b -> - bwmax b <= w <= bwmax b ->
  (forall l, (l < bsize b)%nat -> represents (su (bsve b)) l (f l) /\ represents (sv (bsve b)) l (g l) /\
                                  represents (bu b) l (F l) /\ represents (bv b) l (G l)) ->
  let lam := bbeta b * bwmax b in let x := 2 * t / bbeta b - 1 in let y := w / bwmax b in
  sumn (bsize b) (fun l => nth l (bs b) 0 * F l t * G l w) - exp (- t * w) / (1 + exp (- bbeta b * w)) =
  sumn (bsize b) (fun l => sval (bsve b) l * f l x * g l y) - exp (- lam * y * (x + 1) / 2) / (1 + exp (- lam * y)).
Proof. exact expansion_logistic. Qed.
Print Assumptions C45_logistic_kernel.

(** C45: for ypower = 1 it is the kernel divided by wmax^2. *)
Theorem C45_bose_kernel :
  forall compute b, built compute b -> forall t w (f g F G : nat -> R -> R),
  kyp (bkernel b) = 1%Z ->
  0 <= t <= bbeta b -> - bwmax b <= w <= bwmax b ->
  (forall l, (l < bsize b)%nat -> represents (su (bsve b)) l (f l) /\ represents (sv (bsve b)) l (g l) /\
                                  represents (bu b) l (F l) /\ represents (bv b) l (G l)) ->
  let lam := bbeta b * bwmax b in let x := 2 * t / bbeta b - 1 in let y := w / bwmax b in
  sumn (bsize b) (fun l => nth l (bs b) 0 * F l t * G l w) - / (bwmax b) ^ 2 * (w * exp (- t * w) / (1 - exp (- bbeta b * w))) =
  / bwmax b * (sumn (bsize b) (fun l => sval (bsve b) l * f l x * g l y) -
               y * exp (- lam * y * (x + 1) / 2) / (1 - exp (- lam * y))).
Proof. exact expansion_bose. Qed.
Print Assumptions C45_bose_kernel.
