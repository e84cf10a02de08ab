(** C92: piecewise polynomials evaluated in rounded arithmetic. *)
From Coq Require Import ZArith Reals Lra Sorting.Sorted.
From Coq Require Import List.
From Verif.Model Require Import Base Util Num Poly PolyIEEE IEEE.
From Verif.Spec Require Import SPoly SKernelIEEE SPolyIEEE.
From Verif.Proofs Require Import KernelRoundCall PPolyExamples PolyRound.
Import ListNotations.
Open Scope R_scope.

(** Calling one polynomial: the computed value is close to that of the function
    the coefficients and knots stand for. *)
Theorem C92_call : forall u eta rd old p x i, rounding u eta rd -> 0 < u <= / 10000 -> 0 <= eta ->
  geom_near u eta (sgeom p) -> (0 < glen (sgeom p))%nat ->
  in_segment (sgeom p) i x -> fair_length u eta (sgeom p) i -> loss (sgeom p) i * u <= 1 ->
  exists y, scall_rd old rd p x = Ok y /\
    Rabs (y - seg_fun (sgeom p) (scol p) i x) <= call_error u eta (sgeom p) (scol p) i.
Proof. exact scall_near. Qed.
Print Assumptions C92_call.

(** Calling a set. *)
Theorem C92_set : forall u eta rd old p x i, rounding u eta rd -> 0 < u <= / 10000 -> 0 <= eta ->
  geom_near u eta (vgeom p) -> (0 < glen (vgeom p))%nat ->
  in_segment (vgeom p) i x -> fair_length u eta (vgeom p) i -> loss (vgeom p) i * u <= 1 ->
  exists ys, vcall_rd old rd p x = Ok ys /\
    Forall2 (fun c y => Rabs (y - seg_fun (vgeom p) c i x) <= call_error u eta (vgeom p) c i) (vcols p) ys.
Proof. exact vcall_near. Qed.
Print Assumptions C92_set.

(** Every point of the interval belongs to a segment. *)
Theorem C92_covers : forall u eta g x, geom_near u eta g -> gxmin g <= x <= gxmax g ->
  exists i, in_segment g i x /\ forall j, in_segment g j x -> j = i.
Proof. exact segment_exists. Qed.
Print Assumptions C92_covers.

(** All ways of asking for a value agree to the last bit: value(l, x), p[l](x),
    entry l of p(x), and entry (l, m) of p applied to an array. *)
Theorem C92_value_is_entry_of_call : forall old rd p l x v,
  value_rd old rd p l x = Ok v <-> exists vs, vcall_rd old rd p x = Ok vs /\ pyindex vs l = Some v.
Proof. exact value_entry. Qed.
Print Assumptions C92_value_is_entry_of_call.

Theorem C92_value_is_item_call : forall old rd p l x v,
  value_rd old rd p l x = Ok v <-> (do q <- getitem p l; scall_rd old rd q x) = Ok v.
Proof. exact value_item_rd. Qed.
Print Assumptions C92_value_is_item_call.

Theorem C92_array : forall old rd p xs M, vcall_arr_rd old rd p xs = Ok M ->
  List.length M = List.length (vcols p) /\
  (forall l m row x, nth_error M l = Some row -> nth_error xs m = Some x ->
     exists v, nth_error row m = Some v /\ value_rd old rd p (Z.of_nat l) x = Ok v).
Proof. exact arr_entry. Qed.
Print Assumptions C92_array.

(** Rounding does not change which calls raise. *)
Theorem C92_array_exceptions : forall u eta rd old p xs, geom_near u eta (vgeom p) -> (0 < glen (vgeom p))%nat ->
  (Forall (fun x => gxmin (vgeom p) <= x <= gxmax (vgeom p)) xs -> exists M, vcall_arr_rd old rd p xs = Ok M) /\
  (~ Forall (fun x => gxmin (vgeom p) <= x <= gxmax (vgeom p)) xs -> vcall_arr_rd old rd p xs = Raise ValueError).
Proof. exact arr_succeeds. Qed.
Print Assumptions C92_array_exceptions.

Theorem C92_outside : forall old rd x,
  (forall p, ~ (gxmin (sgeom p) <= x <= gxmax (sgeom p)) -> scall_rd old rd p x = Raise ValueError) /\
  (forall p, ~ (gxmin (vgeom p) <= x <= gxmax (vgeom p)) ->
     vcall_rd old rd p x = Raise ValueError /\ forall l, value_rd old rd p l x = Raise ValueError).
Proof. exact call_outside. Qed.
Print Assumptions C92_outside.

(** Objects whose segment lengths were computed from the knots in the same
    arithmetic qualify, and so do those with exact lengths. *)
Theorem C92_computed_lengths : forall u eta rd g, rounding u eta rd -> (0 < gnseg g)%nat ->
  List.length (gknots g) = S (gnseg g) -> StronglySorted Rlt (gknots g) ->
  gdx g = map rd (diffs (gknots g)) -> geom_near u eta g.
Proof. exact steps_near. Qed.
Print Assumptions C92_computed_lengths.

Theorem C92_exact_lengths : forall u eta g, 0 <= u -> 0 <= eta -> geom_ok g -> geom_near u eta g.
Proof. exact geom_ok_near. Qed.
Print Assumptions C92_exact_lengths.

(** Double precision. *)
Theorem C92_doubles : forall old p x i, geom_near (/ 2 ^ 53) eta64 (sgeom p) -> (0 < glen (sgeom p))%nat ->
  in_segment (sgeom p) i x ->
  / 10 ^ 290 <= knot (sgeom p) (S i) - knot (sgeom p) i <= 10 ^ 290 -> loss (sgeom p) i <= 2 ^ 53 ->
  exists y, scall_rd old rnd64 p x = Ok y /\
    Rabs (y - seg_fun (sgeom p) (scol p) i x) <= call_error (/ 2 ^ 53) eta64 (sgeom p) (scol p) i.
Proof. exact double_call. Qed.
Print Assumptions C92_doubles.

(** Without rounding these are the definitions the other properties are about;
    both forms of numpy's recurrence compute the Legendre sum. *)
Theorem C92_exact_arithmetic : forall old,
  (forall n c x, legval_rd old (fun t => t) n c x = legval n c x) /\
  (forall p x, scall_rd old (fun t => t) p x = scall p x) /\
  (forall p x, vcall_rd old (fun t => t) p x = vcall p x) /\
  (forall p xs, vcall_arr_rd old (fun t => t) p xs = vcall_arr p xs) /\
  (forall p l x, value_rd old (fun t => t) p l x = value p l x).
Proof. exact exact_arithmetic. Qed.
Print Assumptions C92_exact_arithmetic.

(** The function with value P_1 on two segments, at 1/2, in double precision. *)
Example C92_nonvacuous :
  geom_near (/ 2 ^ 53) eta64 ex_geom /\ (0 < glen ex_geom)%nat /\ in_segment ex_geom 1 (/ 2) /\
  / 10 ^ 290 <= knot ex_geom 2 - knot ex_geom 1 <= 10 ^ 290 /\ loss ex_geom 1 = 5940 /\
  seg_fun ex_geom line_col 1 (/ 2) = - / 2.
Proof. exact ex_case. Qed.
Example C92_nonvacuous_value : forall old,
  exists y, scall_rd old rnd64 (SPoly ex_geom line_col) (/ 2) = Ok y /\ Rabs (y + / 2) <= / 10 ^ 12.
Proof. exact ex_value. Qed.
