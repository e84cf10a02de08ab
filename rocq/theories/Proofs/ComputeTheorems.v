(** The theorems on the computation of expansions in their final form. *)
From Coq Require Import String ZArith Arith Bool Reals Lra Lia Psatz.
From Coquelicot Require Import Coquelicot.
From Coq Require Import List Sorting.Sorted Sorting.Permutation.
From Verif.Model Require Import Base Num Gauss Poly SVE Compute.
From Verif.Spec Require Import SGauss SPoly SFT SSVE SBasis SKernel SCompute.
From Verif.Proofs Require Import BaseFacts SumFacts IntFacts PPolyFacts BasisPhys ComputeNodes ComputePost ComputeMerge ComputeMerged ComputeExamples.
Import ListNotations.
Open Scope R_scope.
Notation length := List.length.

Lemma canonicalize_defined u v : fresh u ->
  (gxmin (vgeom u) <= 1 <= gxmax (vgeom u) -> exists c, canonicalize u v = Ok c) /\
  ((1 < gxmin (vgeom u) \/ gxmax (vgeom u) < 1) -> canonicalize u v = Raise ValueError).
Proof.
  intros (Hg & Ho & Hl). unfold canonicalize. split.
  - intros H1. rewrite vcall_cval by (auto; lia). cbn [bind]. eexists; reflexivity.
  - intros H1. rewrite vcall_out by auto. reflexivity.
Qed.

Lemma gauge_example : let u := VPoly exg [exe; exo] in
  fresh u /\ gxmin (vgeom u) <= 1 <= gxmax (vgeom u) /\
  represents u 0 (fun _ => 1) /\ represents u 1 (fun x => sqrt 3 * x) /\ exists c, canonicalize u u = Ok c.
Proof.
  intros u. assert (F : fresh u) by apply exg_fresh. assert (R1 : gxmin (vgeom u) <= 1 <= gxmax (vgeom u)) by (unfold u, gxmin, gxmax; cbn; lra).
  split; [exact F|]. split; [exact R1|]. destruct ex_range as [Ra Rb].
  split; [|split; [|apply canonicalize_defined; auto]].
  - intros x Hx. unfold u in Hx. cbn [vgeom] in Hx. rewrite Ra, Rb in Hx. rewrite <- (exe_val x Hx).
    apply (value_cval u 0 exe x); try apply exg_ok; try reflexivity; try (cbn; lia); unfold u; cbn [vgeom]; rewrite Ra, Rb; exact Hx.
  - intros x Hx. unfold u in Hx. cbn [vgeom] in Hx. rewrite Ra, Rb in Hx. rewrite <- (exo_val x Hx).
    apply (value_cval u 1 exo x); try apply exg_ok; try reflexivity; try (cbn; lia); unfold u; cbn [vgeom]; rewrite Ra, Rb; exact Hx.
Qed.

Lemma merge_sorted argsort eps n hx hy even odd : half_edges hx -> half_edges hy ->
  sve_on n hx hy even -> sve_on n hx hy odd ->
  sorts (ss even ++ ss odd) (argsort (ss even ++ ss odd)) ->
  exists r, merge argsort eps (mirrored hx) (mirrored hy) even odd = Ok r /\
    sve_on n (mirrored hx) (mirrored hy) r /\ seps r = Some eps /\
    gxmin (vgeom (su r)) = -1 /\ gxmax (vgeom (su r)) = 1 /\
    gxmin (vgeom (sv r)) = -1 /\ gxmax (vgeom (sv r)) = 1 /\
    nonincreasing (ss r) /\ Permutation (ss r) (ss even ++ ss odd).
Proof.
  intros Hx Hy He Ho Hs. destruct (merge_ok argsort eps n hx hy even odd Hx Hy He Ho Hs) as (r & G & H & Hm & E1 & E2 & F1 & F2 & K1 & K2 & L1 & L2 & Es & _).
  exists r. split; [exact Hm|]. subst G H.
  pose proof (lens argsort eps n hx hy even odd Hx Hy He Ho Hs r Hm) as (N1 & N2 & N3).
  split; [repeat (split; [assumption|]); split; congruence|]. split; [auto|].
  pose proof (range_u argsort eps n hx hy even odd Hx Hy He Ho Hs r Hm) as [A B]. pose proof (range_v argsort eps n hx hy even odd Hx Hy He Ho Hs r Hm) as [C D].
  repeat (split; [assumption|]). apply (merged_sorted argsort eps n hx hy even odd Hx Hy He Ho Hs r Hm).
Qed.

Lemma merge_parity argsort eps n hx hy even odd r : half_edges hx -> half_edges hy ->
  sve_on n hx hy even -> sve_on n hx hy odd ->
  sorts (ss even ++ ss odd) (argsort (ss even ++ ss odd)) ->
  merge argsort eps (mirrored hx) (mirrored hy) even odd = Ok r ->
  forall l p q, nth_error (vcols (su r)) l = Some p -> nth_error (vcols (sv r)) l = Some q ->
    (csym p = 1 \/ csym p = -1) /\ csym q = csym p /\
    has_parity (vgeom (su r)) p (csym p) /\ has_parity (vgeom (sv r)) q (csym q).
Proof. intros. eapply (merged_parity argsort eps n hx hy even odd); eassumption. Qed.

Lemma merge_orthonormal argsort eps n hx hy even odd r : half_edges hx -> half_edges hy ->
  sve_on n hx hy even -> sve_on n hx hy odd ->
  sorts (ss even ++ ss odd) (argsort (ss even ++ ss odd)) ->
  merge argsort eps (mirrored hx) (mirrored hy) even odd = Ok r ->
  (orthonormal_functions (su even) -> orthonormal_functions (su odd) -> orthonormal_functions (su r)) /\
  (orthonormal_functions (sv even) -> orthonormal_functions (sv odd) -> orthonormal_functions (sv r)) /\
  ((forall l f, represents (su even) l f -> 0 < f 1) -> (forall l f, represents (su odd) l f -> 0 < f 1) ->
   forall l f, represents (su r) l f -> 0 < f 1).
Proof.
  intros. split; [|split].
  - eapply (merged_orthonormal_u argsort eps n hx hy even odd); eassumption.
  - eapply (merged_orthonormal_v argsort eps n hx hy even odd); eassumption.
  - eapply (merged_positive argsort eps n hx hy even odd); eassumption.
Qed.

Lemma merge_reconstructs argsort eps n hx hy even odd r : half_edges hx -> half_edges hy ->
  sve_on n hx hy even -> sve_on n hx hy odd ->
  sorts (ss even ++ ss odd) (argsort (ss even ++ ss odd)) ->
  merge argsort eps (mirrored hx) (mirrored hy) even odd = Ok r ->
  forall (k : R -> R -> R) e,
  (forall x y, -1 <= x <= 1 -> -1 <= y <= 1 -> k (- x) (- y) = k x y) ->
  (forall x y, 0 <= x <= 1 -> 0 <= y <= 1 -> within_at e even (fun x y => k x y + k x (- y)) x y) ->
  (forall x y, 0 <= x <= 1 -> 0 <= y <= 1 -> within_at e odd (fun x y => k x y - k x (- y)) x y) ->
  forall x y, -1 <= x <= 1 -> -1 <= y <= 1 ->
    (0 <= x \/ ~ In (- x) hx) -> (0 <= y \/ ~ In (- y) hy) -> within_at e r k x y.
Proof. intros. eapply (merged_off_knots argsort eps n hx hy even odd); eassumption. Qed.

Lemma merge_reconstructs_everywhere argsort eps n hx hy even odd r : half_edges hx -> half_edges hy ->
  sve_on n hx hy even -> sve_on n hx hy odd ->
  sorts (ss even ++ ss odd) (argsort (ss even ++ ss odd)) ->
  merge argsort eps (mirrored hx) (mirrored hy) even odd = Ok r ->
  forall (k : R -> R -> R) e,
  (forall x y, -1 <= x <= 1 -> -1 <= y <= 1 -> k (- x) (- y) = k x y) ->
  (forall x y, 0 <= x <= 1 -> 0 <= y <= 1 -> within_at e even (fun x y => k x y + k x (- y)) x y) ->
  (forall x y, 0 <= x <= 1 -> 0 <= y <= 1 -> within_at e odd (fun x y => k x y - k x (- y)) x y) ->
  (forall x y, -1 <= x <= 1 -> -1 <= y <= 1 -> continuous (fun t => k t y) x) ->
  (forall x y, -1 <= x <= 1 -> -1 <= y <= 1 -> continuous (fun t => k x t) y) ->
  forall x y, -1 <= x <= 1 -> -1 <= y <= 1 -> within_at e r k x y.
Proof. intros. eapply (merged_everywhere argsort eps n hx hy even odd); eassumption. Qed.

Lemma merge_example :
  half_edges [0; 1] /\ sve_on 2 [0; 1] [0; 1] ex_even /\ sve_on 2 [0; 1] [0; 1] ex_odd /\
  sorts (ss ex_even ++ ss ex_odd) [1%nat; 0%nat] /\
  (orthonormal_functions (su ex_even) /\ orthonormal_functions (sv ex_even)) /\
  (orthonormal_functions (su ex_odd) /\ orthonormal_functions (sv ex_odd)) /\
  (forall x y, exk (- x) (- y) = exk x y) /\
  (forall x y, 0 <= x <= 1 -> 0 <= y <= 1 -> within_at 0 ex_even (fun x y => exk x y + exk x (- y)) x y) /\
  (forall x y, 0 <= x <= 1 -> 0 <= y <= 1 -> within_at 0 ex_odd (fun x y => exk x y - exk x (- y)) x y) /\
  (forall x y, continuous (fun t => exk t y) x) /\ (forall x y, continuous (fun t => exk x t) y).
Proof.
  split; [apply ex_half|]. split; [apply ex_even_on|]. split; [apply ex_odd_on|]. split; [apply ex_sorts|].
  split; [apply ex_even_ortho|]. split; [apply ex_odd_ortho|]. split; [intros; unfold exk; ring|].
  split; [apply ex_even_exact|]. split; [apply ex_odd_exact|].
  split; intros x y; unfold exk; apply (ex_derive_continuous (K := R_AbsRing) (V := R_NormedModule)); auto_derive; auto.
Qed.
