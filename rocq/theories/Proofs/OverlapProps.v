(** Statements about overlap assembled from the facts about its loop. *)
From Coquelicot Require Import Coquelicot.
From Coq Require Import Reals Lra Lia Arith ZArith Bool.
From Coq Require Import List Sorting.Sorted Sorting.Permutation.
From Verif.Model Require Import Base Util Num Gauss Kronrod Poly Overlap.
From Verif.Spec Require Import SGauss SPoly SFT SBasis SOverlap.
From Verif.Proofs Require Import OverlapTiles OverlapFacts OverlapMore OverlapAccuracy.
Import ListNotations.
Open Scope R_scope.
Notation length := List.length.

Lemma partition_result p f rtol radix ml mp points e val err nc warned :
  (0 < radix)%nat -> StronglySorted Rle (gknots (vgeom p)) -> breaks (gknots (vgeom p)) points e ->
  compute_overlap p f rtol radix ml mp points = Ok (val, err, nc, warned) ->
  exists done pending, tiles (done ++ pending) e /\ (warned = true <-> pending <> []) /\
    forall l c u h, represents p l u -> component f c h ->
      val l c = over done (fun s t => panel15 s t (fun x => u x * h x)) /\
      err l c = over done (fun s t => Rabs (panel31 s t (fun x => u x * h x) - panel15 s t (fun x => u x * h x))).
Proof.
  intros Hr Hs Hb H. destruct (overlap_partition _ _ _ _ _ _ _ _ _ _ _ Hr Hs H) as (t & D & iv & I & <- & <- & Hw).
  rewrite <- (breaks_unique _ _ _ Hb) in I. exists D, iv. split; [apply I|]. split; [exact Hw|]. apply I.
Qed.

Lemma tolerance_result p f r radix ml mp points e val err nc :
  (0 < radix)%nat -> StronglySorted Rle (gknots (vgeom p)) -> breaks (gknots (vgeom p)) points e ->
  compute_overlap p f (Fin r) radix ml mp points = Ok (val, err, nc, false) ->
  exists done, tiles done e /\
    (forall l c u h, represents p l u -> component f c h ->
       val l c = over done (fun s t => panel15 s t (fun x => u x * h x))) /\
    forall s t, In (s, t) done -> exists T, tiles T e /\ In (s, t) T /\
      forall l u B c h, (l < length (vcols p))%nat -> represents p l u ->
        (forall s' t' c' h', (c' < nc)%nat -> component f c' h' -> Rabs (panel15 s' t' (fun x => u x * h' x)) <= B s' t') ->
        (c < nc)%nat -> component f c h ->
        Rabs (panel31 s t (fun x => u x * h x) - panel15 s t (fun x => u x * h x)) <= r * over T B /\ 0 < over T B.
Proof.
  intros Hr Hs Hb H. destruct (overlap_partition _ _ _ _ _ _ _ _ _ _ _ Hr Hs H) as (t & D & iv & I & <- & _ & Hw).
  rewrite <- (breaks_unique _ _ _ Hb) in I.
  assert (iv = []). { destruct iv; auto. assert (false = true); [apply Hw; discriminate|discriminate]. } subst iv.
  exists D. split; [rewrite <- (app_nil_r D); apply I|]. split; [intros; apply I; auto|].
  intros s s' Hin. destruct (inv_tol _ _ _ _ _ _ _ _ I r nc (s, s') eq_refl eq_refl Hin) as (T & A & B & C). exists T. split; [exact A|]. split; [exact B|]. exact C.
Qed.

Lemma overlap_eq p f rtol points : overlap p f rtol points = compute_overlap p f rtol 2 40 2000 points.
Proof. reflexivity. Qed.
Lemma limits : (0 < 2)%nat /\ (0 < 40)%nat.
Proof. lia. Qed.

Lemma defined_result p f rtol points e nc :
  fresh p -> breaks (gknots (vgeom p)) points e ->
  (forall pts x, points = Some pts -> In x pts -> gxmin (vgeom p) <= x <= gxmax (vgeom p)) ->
  (0 < nc)%nat ->
  (forall x, gxmin (vgeom p) < x < gxmax (vgeom p) -> ~ In x e -> exists v, f x = Ok v /\ length v = nc) ->
  (length e <= 2001)%nat ->
  exists val err warned, overlap p f rtol points = Ok (val, err, nc, warned).
Proof.
  intros H1 H2 H3 H4 H5 H6. rewrite overlap_eq. generalize (overlap_defined p f rtol 2 40 2000 points e nc H1 H2 H3 H4 H5 (proj1 limits) (proj2 limits) H6).
  generalize (compute_overlap p f rtol 2 40 2000 points). intros r H. exact H.
Qed.

Lemma outside_result p f rtol pts e x nc :
  fresh p -> breaks (gknots (vgeom p)) (Some pts) e -> In x pts -> x < gxmin (vgeom p) \/ gxmax (vgeom p) < x ->
  (forall x, exists v, f x = Ok v /\ length v = nc) -> (length e <= 2001)%nat ->
  overlap p f rtol (Some pts) = Raise ValueError.
Proof.
  intros H1 H2 H3 H4 H5 H6. rewrite overlap_eq. generalize (overlap_outside p f rtol 2 40 2000 pts e x nc H1 H2 H3 H4 H5 (proj2 limits) H6).
  generalize (compute_overlap p f rtol 2 40 2000 (Some pts)). intros r H. exact H.
Qed.

Lemma too_many_result p f rtol points e :
  breaks (gknots (vgeom p)) points e -> (2001 < length e)%nat -> overlap p f rtol points = Raise TypeError.
Proof.
  intros H1 H2. rewrite overlap_eq. generalize (overlap_not_started p f rtol 2 40 2000 points e H1 (or_intror H2)).
  generalize (compute_overlap p f rtol 2 40 2000 points). intros r H. exact H.
Qed.

Lemma exceptions_result p f rtol points exc : fresh p -> overlap p f rtol points = Raise exc ->
  exc = ValueError \/ exc = TypeError \/ exists x, f x = Raise exc.
Proof.
  intros H1. rewrite overlap_eq. generalize (overlap_exceptions p f rtol 2 40 2000 points exc H1).
  generalize (compute_overlap p f rtol 2 40 2000 points). intros r H. exact H.
Qed.

Lemma vanishing_result p f rtol points l0 u val err nc warned :
  geom_ok (vgeom p) -> (l0 < length (vcols p))%nat -> represents p l0 u ->
  (forall x v c, f x = Ok v -> u x * nth c v 0 = 0) ->
  overlap p f rtol points = Ok (val, err, nc, warned) ->
  warned = true /\ (forall l c, val l c = 0) /\ (forall l c, err l c = 0).
Proof.
  intros Hg Hl Hu Hz. rewrite overlap_eq.
  generalize (overlap_vanishing 2 2000 p f rtol l0 u Hl Hu Hz 40 points val err nc warned Hg (proj1 limits)).
  generalize (compute_overlap p f rtol 2 40 2000 points). intros r H. exact H.
Qed.
