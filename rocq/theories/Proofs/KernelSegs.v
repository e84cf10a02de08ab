(** Discretisation hints. *)
From Coq Require Import Reals ZArith Arith Bool Lra Lia String.
From Coquelicot Require Import Coquelicot.
From Coq Require Import List Sorting.Sorted.
From Verif.Model Require Import Base Util Num Gauss Kernel.
From Verif.Spec Require Import SGauss SKernel.
From Verif.Proofs Require Import BaseFacts UtilFacts GaussExamples KernelFacts.
Import ListNotations.
Open Scope R_scope.
Notation length := List.length.

Lemma cumsum_from_props : forall l a, Forall (fun x => 0 < x) l ->
  StronglySorted Rlt (cumsum_from a l) /\ Forall (fun t => a < t) (cumsum_from a l) /\
  length (cumsum_from a l) = length l.
Proof.
  induction l as [|x l IH]; intros a H; cbn [cumsum_from].
  - repeat split; constructor.
  - inversion H as [|? ? Hx Hl]; subst. destruct (IH (a + x) Hl) as (S & F & L). split; [|split].
    + constructor; auto.
    + constructor; [lra|]. eapply Forall_impl; [|exact F]. cbn. intros; lra.
    + cbn. now rewrite L.
Qed.

Lemma SS_app : forall (l m : list R), StronglySorted Rlt l -> StronglySorted Rlt m ->
  (forall a b, In a l -> In b m -> a < b) -> StronglySorted Rlt (l ++ m).
Proof.
  induction l as [|x l IH]; intros m Hl Hm H; auto. inversion Hl as [|? ? S F]; subst. cbn. constructor.
  - apply IH; auto. intros; apply H; auto. now right.
  - apply Forall_app. split; auto. apply Forall_forall. intros b Hb. apply H; auto. now left.
Qed.

Lemma SS_map : forall (f : R -> R) l, (forall a b, a < b -> f a < f b) -> StronglySorted Rlt l -> StronglySorted Rlt (map f l).
Proof.
  intros f l Hf. induction 1; cbn; constructor; auto. apply Forall_map. eapply Forall_impl; [|eassumption]. auto.
Qed.

Lemma SS_map_rev_opp : forall l, StronglySorted Rlt l -> StronglySorted Rlt (map Ropp (rev l)).
Proof.
  induction 1 as [|x l S IH F]; cbn; [constructor|]. rewrite map_app. apply SS_app; auto.
  - repeat constructor.
  - intros a b Ha Hb. destruct Hb as [<-|[]]. apply in_map_iff in Ha. destruct Ha as (t & <- & Ht).
    apply in_rev in Ht. rewrite Forall_forall in F. specialize (F t Ht). lra.
Qed.

Lemma opp_rev_invol : forall l, map Ropp (rev (map Ropp (rev l))) = l.
Proof.
  intros. rewrite <- map_rev, map_map, rev_involutive.
  rewrite (map_ext _ (fun x => x)) by (intros; ring). apply map_id.
Qed.

Lemma hd_rev_last : forall (l : list R) d, l <> [] -> hd_error (rev l) = Some (last l d).
Proof.
  intros l d H. destruct (exists_last H) as (m & a & ->). rewrite rev_app_distr, last_last. reflexivity.
Qed.

(** Symmetric extension of positive points ending in 1. *)
Lemma symmetric_valid : forall z, z <> [] -> StronglySorted Rlt z -> Forall (fun t => 0 < t) z -> last z 0 = 1 ->
  valid_segments (map Ropp (rev z) ++ 0 :: z).
Proof.
  intros z Hn Hs Hp Hl. unfold valid_segments. repeat split.
  - apply SS_app.
    + now apply SS_map_rev_opp.
    + constructor; auto.
    + rewrite Forall_forall in Hp. intros a b Ha Hb. apply in_map_iff in Ha. destruct Ha as (t & <- & Ht).
      apply in_rev in Ht. assert (Ht0 := Hp t Ht). destruct Hb as [<-|Hb]; [lra|].
      specialize (Hp b Hb). lra.
  - destruct (exists_last Hn) as (m & a & ->). rewrite last_last in Hl. subst a.
    rewrite rev_app_distr. reflexivity.
  - rewrite rev_app_distr. cbn [rev]. destruct (exists_last Hn) as (m & a & ->). rewrite last_last in Hl. subst a.
    rewrite rev_app_distr. reflexivity.
  - rewrite rev_app_distr, !map_app. cbn [rev]. rewrite map_app. rewrite opp_rev_invol. cbn [map]. rewrite Ropp_0, <- app_assoc. reflexivity.
  - exists (length z). rewrite app_length, map_length, rev_length. cbn. split; [lia|].
    rewrite nth_error_app2 by (rewrite map_length, rev_length; lia). rewrite map_length, rev_length, Nat.sub_diag. reflexivity.
Qed.

Lemma last_map : forall (f : R -> R) l d, l <> [] -> last (map f l) d = f (last l d).
Proof.
  intros f l d H. destruct (exists_last H) as (m & a & ->). rewrite map_app. cbn [map]. now rewrite !last_last.
Qed.

Lemma last_In' : forall (l : list R) d, l <> [] -> In (last l d) l.
Proof. intros l d H. destruct (exists_last H) as (m & a & ->). rewrite last_last. apply in_or_app. right. now left. Qed.

Lemma segments_x_shape : forall diffs, diffs <> [] -> Forall (fun x => 0 < x) diffs ->
  exists z, segments_x_of diffs = map Ropp (rev z) ++ 0 :: z /\ z <> [] /\ StronglySorted Rlt z /\
    Forall (fun t => 0 < t) z /\ last z 0 = 1.
Proof.
  intros diffs Hn Hp. unfold segments_x_of, cumsum.
  destruct (cumsum_from_props diffs 0 Hp) as (S & F & L). set (c := cumsum_from 0 diffs) in *.
  assert (Hc : c <> []) by (destruct diffs; [contradiction|]; destruct c; [discriminate|discriminate]).
  assert (Ht : 0 < last c 0) by (rewrite Forall_forall in F; apply F, last_In'; auto).
  exists (map (fun t => t / last c 0) c). split; [reflexivity|]. split; [destruct c; [contradiction|discriminate]|]. split; [|split].
  - apply SS_map; auto. intros a b Hab. unfold Rdiv. apply Rmult_lt_compat_r; auto. now apply Rinv_0_lt_compat.
  - apply Forall_map. eapply Forall_impl; [|exact F]. intros a Ha. cbn in Ha. apply Rdiv_lt_0_compat; auto.
  - rewrite last_map by auto. field. lra.
Qed.

Lemma segments_y_shape : forall diffs, diffs <> [] -> Forall (fun x => 0 < x) diffs ->
  exists z, segments_y_of diffs = map Ropp (rev z) ++ 0 :: z /\ z <> [] /\ StronglySorted Rlt z /\
    Forall (fun t => 0 < t) z /\ last z 0 = 1.
Proof.
  intros diffs Hn Hp. unfold segments_y_of, cumsum.
  destruct (cumsum_from_props diffs 0 Hp) as (S & F & L). set (c := cumsum_from 0 diffs) in *.
  assert (Hc : c <> []) by (destruct diffs; [contradiction|]; destruct c; [discriminate|discriminate]).
  destruct (exists_last Hc) as (m & T & E). rewrite E in *. clear Hc. rewrite removelast_last, last_last.
  assert (Ht : 0 < T) by (apply Forall_app in F; destruct F as [_ F]; inversion F; auto).
  assert (Hm : StronglySorted Rlt m /\ Forall (fun t => 0 < t < T) m).
  { clear - S F. induction m as [|a m IH]; [split; constructor|]. cbn in S, F. inversion S as [|? ? S1 F1]; subst.
    inversion F; subst. destruct IH as [Q1 Q2]; auto. apply Forall_app in F1. destruct F1 as [F1 F2]. inversion F2; subst.
    split; constructor; auto. }
  destruct Hm as [Sm Fm]. set (z := map (fun t => t / T - 1) m).
  assert (Hz : StronglySorted Rlt z).
  { apply SS_map; auto. intros a b Hab. unfold Rdiv. apply Rplus_lt_compat_r, Rmult_lt_compat_r; auto. now apply Rinv_0_lt_compat. }
  assert (Fz : Forall (fun t => -1 < t < 0) z).
  { unfold z. apply Forall_map. eapply Forall_impl; [|exact Fm]. intros a [Ha1 Ha2]. cbn.
    assert (0 < a / T) by (apply Rdiv_lt_0_compat; auto).
    assert (a / T < 1) by (apply Rmult_lt_reg_r with T; auto; unfold Rdiv; rewrite Rmult_assoc, Rinv_l by lra; lra). lra. }
  exists (map Ropp (rev z) ++ [1]). split; [|split; [|split; [|split]]].
  - rewrite rev_app_distr, map_app, opp_rev_invol. cbn. reflexivity.
  - destruct (map Ropp (rev z)); discriminate.
  - apply SS_app; [now apply SS_map_rev_opp|repeat constructor|]. intros a b Ha [<-|[]].
    apply in_map_iff in Ha. destruct Ha as (t & <- & Ht1). apply in_rev in Ht1. rewrite Forall_forall in Fz. specialize (Fz t Ht1). lra.
  - apply Forall_app. split; [|repeat constructor; lra]. apply Forall_map, Forall_rev. eapply Forall_impl; [|exact Fz]. cbn. intros; lra.
  - apply last_last.
Qed.

Lemma nzeros_pos : forall c lam m, (1 <= m)%Z -> (1 <= nzeros c lam m)%nat.
Proof. intros. unfold nzeros. lia. Qed.

Lemma cosh_pos : forall t, 0 < cosh t.
Proof. intros. unfold cosh. generalize (exp_pos t) (exp_pos (- t)). lra. Qed.

Lemma seq_nonempty : forall (f : nat -> R) n, (1 <= n)%nat -> map f (seq 0 n) <> [].
Proof. intros f [|n] H; [lia|discriminate]. Qed.

Lemma diffs_x_ok : forall k, diffs_x k <> [] /\ Forall (fun x => 0 < x) (diffs_x k).
Proof.
  intros [lam|lam]; cbn [diffs_x].
  - split; [apply seq_nonempty, nzeros_pos; lia|]. apply Forall_map, Forall_forall. intros i _.
    apply Rdiv_lt_0_compat; [lra|apply cosh_pos].
  - split; [apply seq_nonempty, nzeros_pos; lia|]. apply Forall_map, Forall_forall. intros i _.
    apply Rdiv_lt_0_compat; [lra|apply cosh_pos].
Qed.

Lemma Forall_firstn' : forall (P : R -> Prop) n l, Forall P l -> Forall P (firstn n l).
Proof. induction n; intros l H; [constructor|]. destruct l; auto. inversion H; subst. cbn. constructor; auto. Qed.
Lemma Forall_skipn' : forall (P : R -> Prop) n l, Forall P l -> Forall P (skipn n l).
Proof. induction n; intros l H; auto. destruct l; auto. inversion H; subst. cbn. auto. Qed.

Lemma leading_pos : Forall (fun x => 0 < x) leading_diffs.
Proof.
  apply Forall_map, Forall_forall. intros z Hz. apply Rdiv_lt_0_compat; [|lra]. apply IZR_lt.
  cbn in Hz. lia.
Qed.

Lemma diffs_y_ok : forall k, diffs_y k <> [] /\ Forall (fun x => 0 < x) (diffs_y k).
Proof.
  intros [lam|lam]; cbn [diffs_y].
  - assert (Hn := nzeros_pos 20 lam 2 ltac:(lia)). set (n := nzeros 20 lam 2) in *. cbv zeta.
    set (lead := if (n <? 20)%nat then firstn n leading_diffs else leading_diffs).
    assert (Hl : Forall (fun x => 0 < x) lead) by (unfold lead; destruct (n <? 20)%nat; [apply Forall_firstn'|]; apply leading_pos).
    assert (Hne : lead <> []).
    { unfold lead. destruct (n <? 20)%nat; [|discriminate]. destruct n; [lia|discriminate]. }
    split; [destruct lead; [contradiction|discriminate]|]. apply Forall_app. split; auto. apply Forall_skipn'.
    apply Forall_map, Forall_forall. intros i _. apply Rdiv_lt_0_compat; [lra|apply exp_pos].
  - split; [apply seq_nonempty, nzeros_pos; lia|]. apply Forall_map, Forall_forall. intros i _.
    apply Rdiv_lt_0_compat; [lra|apply exp_pos].
Qed.

Lemma segments_shape : forall k l, l = segments_x k \/ l = segments_y k ->
  exists z, l = map Ropp (rev z) ++ 0 :: z /\ z <> [] /\ StronglySorted Rlt z /\
    Forall (fun t => 0 < t) z /\ last z 0 = 1.
Proof.
  intros k l [->| ->].
  - apply segments_x_shape; apply diffs_x_ok.
  - apply segments_y_shape; apply diffs_y_ok.
Qed.

Lemma segments_valid : forall k, valid_segments (segments_x k) /\ valid_segments (segments_y k).
Proof.
  intros k. split.
  - destruct (segments_shape k _ (or_introl eq_refl)) as (z & -> & ?). apply symmetric_valid; tauto.
  - destruct (segments_shape k _ (or_intror eq_refl)) as (z & -> & ?). apply symmetric_valid; tauto.
Qed.

Lemma allclose_refl : forall l, allclose l l = true.
Proof.
  intros l. unfold allclose. apply forallb_forall. intros [a b] H. cbn.
  assert (a = b) as ->. { clear - H. induction l as [|x l IH]; cbn in H; [contradiction|]. destruct H as [E|H]; [congruence|auto]. }
  apply Rleb_spec. rewrite Rminus_diag_eq, Rabs_R0 by auto.
  assert (0 < / 10 ^ 8) by (apply Rinv_0_lt_compat, pow_lt; lra).
  assert (0 < / 10 ^ 5) by (apply Rinv_0_lt_compat, pow_lt; lra).
  assert (0 <= / 10 ^ 5 * Rabs b) by (apply Rmult_le_pos; [lra|apply Rabs_pos]). lra.
Qed.

Lemma filter_all : forall (p : R -> bool) l, Forall (fun x => p x = true) l -> filter p l = l.
Proof. induction 1; cbn; auto. rewrite H. congruence. Qed.
Lemma filter_none : forall (p : R -> bool) l, Forall (fun x => p x = false) l -> filter p l = [].
Proof. induction 1; cbn; auto. rewrite H. auto. Qed.

Lemma symm_valid : forall l, valid_segments l -> exists h, symm_segments l = Ok h /\
  h = filter (fun x => Rleb 0 x) l /\ mirrored h = l /\ StronglySorted Rlt h /\ hd_error h = Some 0 /\ hd_error (rev h) = Some 1.
Proof.
  intros l (Hs & Hh & Hl & Ha & h & Hlen & Hmid).
  unfold symm_segments. rewrite Ha, allclose_refl. cbn [negb].
  assert (Ed : Nat.div (length l) 2 = h). { rewrite Hlen. rewrite Nat.mul_comm, Nat.div_add_l by lia. cbn. lia. }
  rewrite Ed. assert (El : l = firstn h l ++ skipn h l) by (now rewrite firstn_skipn).
  assert (Hsk : exists z, skipn h l = 0 :: z).
  { clear - Hmid. revert l Hmid. induction h as [|h IH]; intros [|x l] H; try discriminate; cbn in *.
    - injection H as ->. eauto.
    - auto. }
  destruct Hsk as [z Ez]. rewrite Ez in *. rewrite Reqb_true. exists (0 :: z).
  assert (Lf : length (firstn h l) = h) by (rewrite firstn_length; lia).
  assert (Lz : length z = h).
  { assert (E := f_equal (@List.length R) El). rewrite app_length, Lf in E. cbn [List.length] in E. lia. }
  rewrite El in Ha. rewrite rev_app_distr, map_app in Ha. cbn [rev] in Ha. rewrite map_app in Ha. rewrite <- app_assoc in Ha.
  assert (Ef : map Ropp (rev z) = firstn h l).
  { assert (E := f_equal (firstn h) Ha). rewrite !firstn_app in E. rewrite map_length, rev_length, Lz, Lf, Nat.sub_diag in E.
    cbn [firstn] in E. rewrite !app_nil_r in E. rewrite <- Lz in E at 1. rewrite <- (rev_length z), <- (map_length Ropp (rev z)) in E.
    rewrite firstn_all in E. rewrite E. rewrite <- Lf at 1. apply firstn_all. }
  assert (Ss : StronglySorted Rlt (0 :: z)).
  { rewrite El in Hs. clear - Hs. induction (firstn h l); auto. cbn in Hs. inversion Hs; auto. }
  inversion Ss as [|? ? Sz Fz]; subst.
  split; [reflexivity|]. split; [|split; [|split; [|split]]]; auto.
  - rewrite El, filter_app, <- Ef. rewrite filter_none, filter_all; auto.
    + constructor; [apply Rleb_spec; lra|]. eapply Forall_impl; [|exact Fz]. cbn. intros; apply Rleb_spec; lra.
    + apply Forall_map, Forall_rev. eapply Forall_impl; [|exact Fz]. cbn. intros; apply Rleb_false; lra.
  - unfold mirrored. cbn [tl]. rewrite Ef. now rewrite <- El.
  - rewrite El, rev_app_distr in Hl. cbn [rev] in Hl |- *. destruct (rev z); cbn in Hl |- *; auto.
Qed.

(** The reduced kernels obtain the non-negative halves. *)
Lemma reduced_segments : forall k sign r, get_symmetrized k sign = Ok r ->
  exists hx hy, reduced_segments_x r = Ok hx /\ reduced_segments_y r = Ok hy /\
    hx = filter (fun x => Rleb 0 x) (segments_x k) /\ hy = filter (fun x => Rleb 0 x) (segments_y k) /\
    mirrored hx = segments_x k /\ mirrored hy = segments_y k.
Proof.
  intros k sign r Hr.
  assert (Ek : rinner r = k).
  { unfold get_symmetrized, reduced_init in Hr. destruct (Reqb sign (-1)), (Reqb (Rabs sign) 1); try discriminate; injection Hr as <-; reflexivity. }
  unfold reduced_segments_x, reduced_segments_y. rewrite Ek. destruct (segments_valid k) as [Hx Hy].
  destruct (symm_valid _ Hx) as (hx & E1 & E2 & E3 & _). destruct (symm_valid _ Hy) as (hy & F1 & F2 & F3 & _).
  exists hx, hy. auto 10.
Qed.

(** Strictly increasing edges are accepted by the piecewise construction. *)
Lemma sorted_chained : forall l, StronglySorted Rlt l -> chained Rlt l.
Proof.
  induction l as [|a [|b l] IH]; intros H; try exact I. inversion H as [|? ? S F]; subst. inversion F; subst.
  split; [assumption|]. apply IH. assumption.
Qed.

Lemma segments_accepted : forall k r, exists gx gy, piecewise r (segments_x k) = Ok gx /\ piecewise r (segments_y k) = Ok gy.
Proof.
  intros k r. destruct (segments_valid k) as [(Hx & _) (Hy & _)].
  destruct (proj1 (piecewise_raises r (segments_x k)) (sorted_chained _ Hx)) as [gx Ex].
  destruct (proj1 (piecewise_raises r (segments_y k)) (sorted_chained _ Hy)) as [gy Ey].
  eauto.
Qed.
