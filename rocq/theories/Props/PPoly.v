(** C23, C24, C25, C26, C32: piecewise Legendre polynomials. *)
From Coq Require Import Reals ZArith Arith Bool Lra Lia.
From Coquelicot Require Import Coquelicot.
From Coq Require Import List Sorting.Sorted.
From Verif.Model Require Import Base Num Roots Poly.
From Verif.Spec Require Import SRoots SPoly.
From Verif.Proofs Require Import PPolyFacts PPolyInt PPolyExamples.
Import ListNotations.
Open Scope R_scope.

(** C23: segment lookup. *)
Theorem C23_segment_lookup :
  forall g x, geom_ok g ->
  (gxmin g <= x <= gxmax g ->
   exists i t, split g x = Ok (i, t) /\ (i < gnseg g)%nat /\ knot g i <= x <= knot g (S i) /\
    (x < knot g (S i) \/ (S i = gnseg g /\ x = gxmax g)) /\
    -1 <= t <= 1 /\ x = (knot g i + knot g (S i)) / 2 + t * ((knot g (S i) - knot g i) / 2)) /\
  (~ (gxmin g <= x <= gxmax g) -> split g x = Raise ValueError).
Proof. exact lookup. Qed.
Print Assumptions C23_segment_lookup.

(** C23: a call returns the expansion of the segment in which the point lies. *)
Theorem C23_evaluation :
  forall p x i, geom_ok (sgeom p) -> (0 < glen (sgeom p))%nat -> (i < gnseg (sgeom p))%nat ->
  knot (sgeom p) i <= x ->
  (x < knot (sgeom p) (S i) \/ (S i = gnseg (sgeom p) /\ x = gxmax (sgeom p))) ->
  scall p x = Ok (seg_fun (sgeom p) (scol p) i x).
Proof. exact evaluation. Qed.
Print Assumptions C23_evaluation.

Theorem C23_evaluation_outside :
  forall p x, ~ (gxmin (sgeom p) <= x <= gxmax (sgeom p)) -> scall p x = Raise ValueError.
Proof. exact evaluation_outside. Qed.
Print Assumptions C23_evaluation_outside.

(** C23: strictly increasing knots give a well-formed object, decreasing ones
    are rejected. *)
Theorem C23_construction :
  forall order nseg dat knots symm,
  (0 < nseg)%nat -> length knots = S nseg ->
  (match symm with None => True | Some s => length s = length dat end) ->
  (StronglySorted Rlt knots ->
   exists p, poly_init order nseg dat knots None symm = Ok p /\ geom_ok (vgeom p) /\
     gknots (vgeom p) = knots /\ length (vcols p) = length dat) /\
  ((exists i, (S i < length knots)%nat /\ nth (S i) knots 0 < nth i knots 0) ->
   poly_init order nseg dat knots None symm = Raise ValueError).
Proof. exact construction. Qed.
Print Assumptions C23_construction.

Example C23_hypotheses_met :
  geom_ok ex_geom /\ gxmin ex_geom <= 0 <= gxmax ex_geom /\ segment ex_geom 0 = 1%nat /\ segment ex_geom 2 = 1%nat.
Proof.
  split; [exact ex_geom_ok|]. split; [unfold gxmin, gxmax; simpl; lra|].
  split; apply (segment_spec ex_geom ex_geom_ok); unfold knot, gxmax; simpl; try lia; try lra.
  right. split; lra || reflexivity.
Qed.

(** C24: the three routes return the same values in the same cases ... *)
Theorem C24_value_is_item_call :
  forall p l x v, value p l x = Ok v <-> (do q <- getitem p l; scall q x) = Ok v.
Proof. exact value_item. Qed.
Print Assumptions C24_value_is_item_call.

Theorem C24_value_is_entry_of_call :
  forall p l x v, value p l x = Ok v <-> exists vs, vcall p x = Ok vs /\ pyindex vs l = Some v.
Proof. exact value_vcall. Qed.
Print Assumptions C24_value_is_entry_of_call.

(** ... namely exactly for points in the interval and indices in range. *)
Theorem C24_succeeds_iff :
  forall p l x, geom_ok (vgeom p) -> (0 < glen (vgeom p))%nat ->
  ((exists v, value p l x = Ok v) <->
   gxmin (vgeom p) <= x <= gxmax (vgeom p) /\
   (- Z.of_nat (length (vcols p)) <= l < Z.of_nat (length (vcols p)))%Z).
Proof. exact value_ok. Qed.
Print Assumptions C24_succeeds_iff.

(** Indexing counts from the end for negative indices. *)
Theorem C24_index :
  forall p l,
  ((0 <= l < Z.of_nat (length (vcols p)))%Z ->
     exists c, nth_error (vcols p) (Z.to_nat l) = Some c /\ getitem p l = Ok (SPoly (vgeom p) c)) /\
  ((- Z.of_nat (length (vcols p)) <= l < 0)%Z ->
     exists c, nth_error (vcols p) (Z.to_nat (Z.of_nat (length (vcols p)) + l)) = Some c /\ getitem p l = Ok (SPoly (vgeom p) c)) /\
  (~ (- Z.of_nat (length (vcols p)) <= l < Z.of_nat (length (vcols p)))%Z -> getitem p l = Raise IndexError).
Proof. exact getitem_cases. Qed.
Print Assumptions C24_index.

Theorem C24_exceptions :
  forall p l x, geom_ok (vgeom p) -> (0 < glen (vgeom p))%nat ->
  (x < gxmin (vgeom p) \/ gxmax (vgeom p) < x -> value p l x = Raise ValueError /\ vcall p x = Raise ValueError) /\
  (gxmin (vgeom p) <= x <= gxmax (vgeom p) -> ~ (- Z.of_nat (length (vcols p)) <= l < Z.of_nat (length (vcols p)))%Z ->
     value p l x = Raise IndexError).
Proof. exact exceptions. Qed.
Print Assumptions C24_exceptions.

(** Arrays of points: entry [l, m] is the value of polynomial l at point m; the
    call succeeds iff all points are in the interval. *)
Theorem C24_vectorised :
  forall p xs M, geom_ok (vgeom p) -> (0 < glen (vgeom p))%nat -> vcall_arr p xs = Ok M ->
  length M = length (vcols p) /\
  (forall l m row x, nth_error M l = Some row -> nth_error xs m = Some x ->
     exists v, nth_error row m = Some v /\ value p (Z.of_nat l) x = Ok v).
Proof. exact vectorised. Qed.
Print Assumptions C24_vectorised.

Theorem C24_vectorised_succeeds_iff :
  forall p xs, geom_ok (vgeom p) -> (0 < glen (vgeom p))%nat ->
  ((exists M, vcall_arr p xs = Ok M) <-> Forall (fun x => gxmin (vgeom p) <= x <= gxmax (vgeom p)) xs).
Proof. exact vectorised_raises. Qed.
Print Assumptions C24_vectorised_succeeds_iff.

(** Slicing commutes with evaluation, indexing and differentiation. *)
Theorem C24_slice_then_call :
  forall p n x, vcall (getslice p n) x = do vs <- vcall p x; Ok (slice_to n vs).
Proof. exact vcall_slice. Qed.
Print Assumptions C24_slice_then_call.

Theorem C24_slice_then_index :
  forall p n l, (0 <= l < n)%Z -> (n <= Z.of_nat (length (vcols p)))%Z ->
  getitem (getslice p n) l = getitem p l.
Proof. exact getitem_slice. Qed.
Print Assumptions C24_slice_then_index.

Theorem C24_slice_then_deriv :
  forall m p n, getslice (vderiv m p) n = vderiv m (getslice p n).
Proof. exact getslice_vderiv. Qed.
Print Assumptions C24_slice_then_deriv.

Theorem C24_index_then_deriv :
  forall m p l, getitem (vderiv m p) l = do q <- getitem p l; Ok (sderiv m q).
Proof. exact getitem_vderiv. Qed.
Print Assumptions C24_index_then_deriv.

Example C24_hypotheses_met :
  geom_ok (vgeom (VPoly ex_geom [line_col; square_col])) /\ (0 < glen ex_geom)%nat /\
  (-2 <= -1 < 2)%Z /\ pyindex [line_col; square_col] (-1) = Some square_col.
Proof. split; [exact ex_geom_ok|]. split; [simpl; lia|]. split; [lia|reflexivity]. Qed.

(** C25: at every interior point of a segment, deriv(m) is the m-th derivative. *)
Theorem C25_deriv_is_derivative :
  forall g c m i x, geom_ok g -> (i < gnseg g)%nat -> knot g i < x < knot g (S i) ->
  is_derive_n (cval g c) m x (cval (gderiv m g) (cderiv m g c) x).
Proof. exact deriv_interior. Qed.
Print Assumptions C25_deriv_is_derivative.

(** The function differentiated is the one that a call evaluates. *)
Theorem C25_call_of_deriv :
  forall g c m x, geom_ok g -> (0 < glen g)%nat -> gxmin g <= x <= gxmax g ->
  scall (SPoly g c) x = Ok (cval g c x) /\
  scall (sderiv m (SPoly g c)) x = Ok (cval (gderiv m g) (cderiv m g c) x).
Proof. exact call_of_deriv. Qed.
Print Assumptions C25_call_of_deriv.

(** If the function has parity s about the centre, the derivative has parity
    (-1)^m s, which is what is stored. *)
Theorem C25_parity :
  forall g c s, geom_ok g ->
  (forall i, (i <= gnseg g)%nat -> knot g (gnseg g - i) = gxmin g + gxmax g - knot g i) ->
  (forall i x, (i < gnseg g)%nat -> knot g i < x < knot g (S i) ->
     cval g c (gxmin g + gxmax g - x) = s * cval g c x) ->
  forall m i x, (i < gnseg g)%nat -> knot g i < x < knot g (S i) ->
     cval (gderiv m g) (cderiv m g c) (gxmin g + gxmax g - x) = (-1) ^ m * s * cval (gderiv m g) (cderiv m g c) x.
Proof. exact deriv_parity. Qed.
Print Assumptions C25_parity.

Theorem C25_stored_parity : forall g c m, csym (cderiv m g c) = (-1) ^ m * csym c.
Proof. exact stored_parity. Qed.
Print Assumptions C25_stored_parity.

Example C25_hypotheses_met :
  geom_ok unit_geom /\
  (forall i, (i <= gnseg unit_geom)%nat ->
     knot unit_geom (gnseg unit_geom - i) = gxmin unit_geom + gxmax unit_geom - knot unit_geom i) /\
  (forall x, -1 < x < 1 -> cval unit_geom square_col (-1 + 1 - x) = 1 * cval unit_geom square_col x).
Proof.
  split; [exact unit_geom_ok|]. split.
  - intros [|[|i]] Hi; unfold knot, gxmin, gxmax; simpl in *; try lra; lia.
  - intros. apply square_parity. lra.
Qed.

(** C26: roots(), in exact arithmetic. *)
Theorem C26_even :
  forall g c alpha, geom_ok g -> (0 < alpha)%nat -> csym c = 1 ->
  exists L G rs,
    ends_with (fun fuel => roots (fun x => x) fuel (SPoly g c) alpha) L /\
    L = map (fun r => gxmin g + gxmax g - r) (rev L) /\
    Forall (fun r => gxmin g <= r <= gxmax g) L /\
    refines alpha (half_knots g) G /\ found (cval g c) G rs /\
    L = map (fun r => gxmin g + gxmax g - r) (rev rs) ++ rs /\
    count_occ Req_EM_T L (centre g) = if Req_EM_T (cval g c (centre g)) 0 then 2%nat else 0%nat.
Proof. exact even_roots. Qed.
Print Assumptions C26_even.

Theorem C26_odd :
  forall g c alpha, geom_ok g -> (0 < alpha)%nat -> csym c = -1 ->
  let fm := cval g c (centre g) in
  let dfm := cval (gderiv 1 g) (cderiv 1 g c) (centre g) in
  exists L G rs rs1,
    ends_with (fun fuel => roots (fun x => x) fuel (SPoly g c) alpha) L /\
    L = map (fun r => gxmin g + gxmax g - r) (rev L) /\
    Forall (fun r => gxmin g <= r <= gxmax g) L /\
    StronglySorted Rlt L /\
    refines alpha (half_knots g) G /\ found (cval g c) G rs /\
    L = map (fun r => gxmin g + gxmax g - r) (rev rs1) ++ centre g :: rs1 /\
    (fm = 0 \/ fm * dfm < 0 -> rs1 = tl rs) /\ (fm <> 0 -> 0 <= fm * dfm -> rs1 = rs) /\
    count_occ Req_EM_T L (centre g) = 1%nat.
Proof. exact odd_roots. Qed.
Print Assumptions C26_odd.

Theorem C26_no_parity :
  forall g, geom_ok g -> forall c alpha, (0 < alpha)%nat -> csym c = 0 ->
  exists G rs, refines alpha (gknots g) G /\ found (cval g c) G rs /\
    ends_with (fun fuel => roots (fun x => x) fuel (SPoly g c) alpha) rs /\
    Forall (fun r => gxmin g <= r <= gxmax g) rs.
Proof. exact roots_none. Qed.
Print Assumptions C26_no_parity.

(** x^2 on [-1, 1]: the root at the midpoint is returned twice. *)
Theorem C26_roots_distinct_refuted :
  exists g c L, geom_ok g /\ csym c = 1 /\ (forall x, -1 <= x <= 1 -> cval g c x = x ^ 2) /\
    ends_with (fun fuel => roots (fun x => x) fuel (SPoly g c) 2) L /\ ~ NoDup L.
Proof. exact roots_repeated. Qed.
Print Assumptions C26_roots_distinct_refuted.

(** C32 *)
Theorem C32_inner_product :
  forall g, geom_ok g -> forall c d,
  is_RInt (fun x => cval g c x * cval g d x) (gxmin g) (gxmax g)
    (sumn (gnseg g) (fun i => sumn (glen g) (fun k => cdat c k i * cdat d k i * (2 / (2 * INR k + 1))))).
Proof. exact inner_product. Qed.
Print Assumptions C32_inner_product.

Theorem C32_orthonormal_iff :
  forall p, geom_ok (vgeom p) ->
  ((forall l m c d, nth_error (vcols p) l = Some c -> nth_error (vcols p) m = Some d ->
      is_RInt (fun x => cval (vgeom p) c x * cval (vgeom p) d x) (gxmin (vgeom p)) (gxmax (vgeom p))
              (if Nat.eqb l m then 1 else 0)) <->
   (forall l m c d, nth_error (vcols p) l = Some c -> nth_error (vcols p) m = Some d ->
      sumn (gnseg (vgeom p)) (fun i => sumn (glen (vgeom p)) (fun k =>
        cdat c k i * cdat d k i * (2 / (2 * INR k + 1)))) = if Nat.eqb l m then 1 else 0)).
Proof. exact orthonormal_set. Qed.
Print Assumptions C32_orthonormal_iff.

Example C32_norm_of_x : is_RInt (fun x => cval unit_geom line_col x * cval unit_geom line_col x) (-1) 1 (2 / 3).
Proof.
  pose proof (C32_inner_product unit_geom unit_geom_ok line_col line_col) as H.
  unfold gxmin, gxmax in H. simpl in H.
  match type of H with is_RInt _ _ _ ?v => replace v with (2 / 3) in H by (field; lra) end. exact H.
Qed.
