(** Concrete cases used as non-vacuity evidence in Props/PRoots.v. *)
From Coq Require Import List ZArith Bool Reals Lra Lia Sorted.
From Flocq Require Import Core.
From Verif.Model Require Import Base Roots IEEE.
From Verif.Spec Require Import SRoots.
From Verif.Proofs Require Import BaseFacts RootsCont IEEEFacts.
Import ListNotations.
Open Scope R_scope.

Lemma terminating_grid :
  StronglySorted Rlt [-1; 1] /\ Forall is_double [-1; 1] /\ (bpow radix2 (-970) <= maxabs [-1; 1]).
Proof.
  assert (H1 : is_double 1).
  { apply (generic_format_bpow radix2 fexp64 0). unfold fexp64, FLT_exp. simpl. lia. }
  split; [repeat constructor; lra|]. split.
  - repeat constructor; auto. apply generic_format_opp; auto.
  - apply Rle_trans with (Rabs 1).
    + rewrite Rabs_R1. apply (bpow_le radix2 (-970) 0); lia.
    + apply maxabs_ge; simpl; auto.
Qed.

Lemma underflowing_grid :
  let t := bpow radix2 (-1030) in
  StronglySorted Rlt [-t; t] /\ Forall is_double [-t; t] /\ (maxabs [-t; t] < bpow radix2 (-1023)) /\
  adjacent [-t; t] (-t) t /\ sign_interval rsignbit (fun v => Reqb v 0) (fun x => x) (-t) t.
Proof.
  intros t. assert (Ht : 0 < t) by apply bpow_gt_0.
  assert (H1 : is_double t).
  { apply (generic_format_bpow radix2 fexp64). unfold fexp64, FLT_exp. simpl. lia. }
  assert (Hlt : t < bpow radix2 (-1023)) by (apply bpow_lt; lia).
  split; [repeat constructor; lra|]. split.
  - repeat constructor; auto. apply generic_format_opp; auto.
  - split.
    + unfold maxabs, fold_right. rewrite Rabs_Ropp, (Rabs_pos_eq t) by lra.
      unfold Rmax. repeat destruct Rle_dec; lra.
    + split; [exists [], []; reflexivity|]. unfold sign_interval, rsignbit.
      rewrite !Reqb_false. split; [lra|]. split; [lra|].
      replace (Rltb (- t) 0) with true by (symmetry; apply Rltb_true; lra).
      replace (Rltb t 0) with false by (symmetry; apply Rltb_false; lra). discriminate.
Qed.

Lemma extremum_case :
  let f := fun x => (5 - Rabs (IZR x - 4)) in
  StronglySorted Z.lt [0; 3; 9]%Z /\ adjacent3 [0; 3; 9]%Z 0%Z 3%Z 9%Z /\ turns f 0%Z 3%Z 9%Z /\
  inner_max f 0%Z 9%Z 4%Z.
Proof.
  split; [repeat constructor; lia|]. split; [exists [], []; reflexivity|].
  unfold turns, inner_max. cbn -[IZR Rabs].
  split; [|split; [lia|split; intros _]].
  - right. split; unfold Rabs; repeat destruct Rcase_abs; lra.
  - unfold Rabs; repeat destruct Rcase_abs; lra.
  - unfold Rabs; repeat destruct Rcase_abs; lra.
Qed.
