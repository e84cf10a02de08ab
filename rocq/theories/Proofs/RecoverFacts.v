(** Undoing an operation along an axis. *)
From Coq Require Import String ZArith Arith Bool Reals Lia Lra.
From Coquelicot Require Import Coquelicot.
From Coq Require Import List Sorted Permutation.
From Verif.Model Require Import Base Util Num FT NDArray Sampling.
From Verif.Spec Require Import SSampling.
From Verif.Proofs Require Import BaseFacts SumFacts FTFacts NDFacts LstsqFacts SamplingFacts SplitFacts SamplingProps.
Import ListNotations.
Open Scope R_scope.
Notation length := List.length.

Lemma forall2_firstn {A B} (P : A -> B -> Prop) l l' a : Forall2 P l l' -> Forall2 P (firstn a l) (firstn a l').
Proof. intros H; revert a; induction H; intros [|a]; cbn [firstn]; constructor; auto. Qed.
Lemma forall2_skipn {A B} (P : A -> B -> Prop) l l' a : Forall2 P l l' -> Forall2 P (skipn a l) (skipn a l').
Proof. intros H; revert a; induction H; intros [|a]; cbn [skipn]; auto. Qed.

Lemma valid_set s idx a l N : valid_index s idx -> (l < N)%nat -> valid_index (set_nth a N s) (set_nth a l idx).
Proof.
  intros H Hl. unfold valid_index, set_nth. apply Forall2_app; [now apply forall2_firstn|]. constructor; [assumption|].
  now apply forall2_skipn.
Qed.

Lemma valid_set_same s idx a l : valid_index s idx -> (a < length s)%nat -> (l < nth a s 0)%nat -> valid_index s (set_nth a l idx).
Proof. intros H Ha Hl. rewrite <- (set_nth_same 0%nat a s Ha) at 1. now apply valid_set. Qed.

(** [y] is [x] with f applied along axis a, and h undoes f. *)
Lemma along_recover (P : (nat -> C) -> Prop) a L N f h x y z :
  (a < length (shp x))%nat -> nth a (shp x) 0%nat = L -> along a N f x y -> along a L h y z ->
  (forall idx, valid_index (shp x) idx -> P (fun l => elt x (set_nth a l idx))) ->
  (forall g v, P g -> (forall i, (i < N)%nat -> v i = f g i) -> forall l, (l < L)%nat -> h v l = g l) ->
  same_outcome (Ok z) (Ok x).
Proof.
  intros Ha HL [S1 E1] [S2 E2] HP HR.
  assert (SZ : shp z = shp x) by (rewrite S2, S1, set_nth_set by assumption; subst L; now apply set_nth_same).
  split; [exact SZ|]. intros idx Hi. rewrite E2 by assumption. rewrite SZ in Hi.
  pose proof (valid_len _ _ Hi) as Hn.
  assert (Hl : (nth a idx 0 < L)%nat) by (subst L; now apply valid_nth).
  rewrite (HR (fun l => elt x (set_nth a l idx))); auto.
  - now rewrite set_nth_same by lia.
  - intros i Hiy. rewrite E1.
    2: { rewrite S1. now apply valid_set. }
    rewrite set_nth_nth by lia. f_equal. apply FunctionalExtensionality.functional_extensionality. intros l.
    now rewrite set_nth_set by lia.
Qed.

Section Works.
Variables (op1 op2 : nd C -> option Z -> res (nd C)) (L N : nat) (f h : (nat -> C) -> nat -> C) (P : (nat -> C) -> Prop).
Hypothesis H1 : works_along_axis (fun x k => op1 x (Some k)) L N f.
Hypothesis H2 : works_along_axis (fun x k => op2 x (Some k)) N L h.
Hypothesis HR : forall g v, P g -> (forall i, (i < N)%nat -> v i = f g i) -> forall l, (l < L)%nat -> h v l = g l.

Lemma works_inv op L0 N0 f0 x k y : works_along_axis op L0 N0 f0 -> op x k = Ok y ->
  exists a, axis_of (length (shp x)) k = Some a /\ nth a (shp x) 0%nat = L0 /\ along a N0 f0 x y.
Proof.
  intros H E. specialize (H x k). destruct (axis_of _ k) as [a|]; [|congruence]. exists a. split; [reflexivity|].
  destruct (Nat.eqb_spec (nth a (shp x) 0%nat) L0); [|congruence]. split; [assumption|].
  destruct H as (y' & E' & A). congruence.
Qed.

Lemma along_len a N0 f0 x y : along a N0 f0 x y -> (a < length (shp x))%nat -> length (shp y) = length (shp x).
Proof. intros [S _] Ha. rewrite S. now apply set_nth_len. Qed.

Lemma works_recover x k y : op1 x (Some k) = Ok y ->
  (forall a idx, valid_index (shp x) idx -> P (fun l => elt x (set_nth a l idx))) ->
  exists z, op2 y (Some k) = Ok z /\ same_outcome (Ok z) (Ok x).
Proof.
  intros E HP. destruct (works_inv _ _ _ _ _ _ _ H1 E) as (a & Ea & HL & A). pose proof (axis_of_lt _ _ _ Ea) as Ha.
  specialize (H2 y k). cbv beta in H2. rewrite (along_len _ _ _ _ _ A Ha), Ea in H2.
  assert (HN : nth a (shp y) 0%nat = N) by (destruct A as [-> _]; apply set_nth_nth; lia). rewrite HN, Nat.eqb_refl in H2.
  destruct H2 as (z & Ez & B). exists z. split; [assumption|]. eapply (along_recover P); eauto.
Qed.

Lemma same_along a N0 f0 x y y' : same_outcome (Ok y) (Ok y') -> along a N0 f0 x y -> along a N0 f0 x y'.
Proof.
  intros [S E] [S1 E1]. split; [congruence|]. intros idx Hi. rewrite <- E by congruence. apply E1. congruence.
Qed.
Lemma same_sym r r' : same_outcome r r' -> same_outcome r' r.
Proof.
  destruct r, r'; cbn; try tauto; try congruence. intros [S E]. split; [congruence|]. intros idx Hi. symmetry. apply E. congruence.
Qed.
Lemma same_trans r r' r'' : same_outcome r r' -> same_outcome r' r'' -> same_outcome r r''.
Proof.
  destruct r, r', r''; cbn; try tauto; try congruence. intros [S E] [S' E']. split; [congruence|].
  intros idx Hi. rewrite E by assumption. apply E'. congruence.
Qed.

Lemma default_recover x y : default_axis op1 -> default_axis op2 -> op1 x None = Ok y ->
  (forall a idx, valid_index (shp x) idx -> P (fun l => elt x (set_nth a l idx))) ->
  exists z, op2 y None = Ok z /\ same_outcome (Ok z) (Ok x).
Proof.
  intros D1 D2 E HP. specialize (D1 x). 
  assert (K : exists k, same_outcome (op1 x None) (op1 x (Some k)) /\
     forall y, length (shp y) = length (shp x) -> same_outcome (op2 y None) (op2 y (Some k))).
  { destruct (length (shp x)) as [|[|n]] eqn:En; [congruence| |].
    - exists 0%Z. split; [assumption|]. intros y' Hy. specialize (D2 y'). now rewrite Hy in D2.
    - exists (Z.of_nat (S (S n)) - 2)%Z. split; [assumption|]. intros y' Hy. specialize (D2 y'). now rewrite Hy in D2. }
  destruct K as (k & K1 & K2). rewrite E in K1. destruct (op1 x (Some k)) as [y1|] eqn:E1; [|contradiction].
  destruct (works_inv _ _ _ _ _ _ _ H1 E1) as (a & Ea & HL & A). pose proof (axis_of_lt _ _ _ Ea) as Ha.
  assert (A' : along a N f x y) by (eapply same_along; [apply same_sym, K1|exact A]).
  specialize (K2 y (along_len _ _ _ _ _ A' Ha)).
  specialize (H2 y k). cbv beta in H2. rewrite (along_len _ _ _ _ _ A' Ha), Ea in H2.
  assert (HN : nth a (shp y) 0%nat = N) by (destruct A' as [-> _]; apply set_nth_nth; lia). rewrite HN, Nat.eqb_refl in H2.
  destruct H2 as (z & Ez & B). rewrite Ez in K2. destruct (op2 y None) as [z'|]; [|contradiction]. exists z'. split; [reflexivity|].
  eapply same_trans; [exact K2|]. eapply (along_recover P); eauto.
Qed.
End Works.
