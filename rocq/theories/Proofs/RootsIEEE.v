From Coq Require Import List ZArith Bool Reals Lia Lra Permutation Sorted Arith.
From Flocq Require Import Core.
From Verif.Model Require Import Base Roots IEEE.
From Verif.Spec Require Import SRoots.
From Verif.Proofs Require Import BaseFacts RootsFacts RootsCont IEEEFacts.
Import ListNotations.
Open Scope R_scope.

Lemma eps64_bpow : eps64 = bpow radix2 (-52).
Proof.
  unfold eps64. rewrite pow_IZR. change (bpow radix2 (-52)) with (/ IZR (2 ^ 52)).
  do 2 f_equal.
Qed.

Section Dbl.
Context {V : Type} (signbit : V -> bool) (f : R -> V) (M : R).
Hypothesis HM : is_double M.
Hypothesis HMbig : bpow radix2 (-970) <= M.
Let xeps := rnd64 (eps64 * M).

Definition inv64 (c : bracket R V) : Prop :=
  is_double (ba c) /\ is_double (bb c) /\ ba c <= bb c /\ Rabs (ba c) <= M /\ Rabs (bb c) <= M.

Lemma xeps_eq : xeps = bpow radix2 (-52) * M.
Proof. unfold xeps. rewrite eps64_bpow. apply scale52_exact; auto. Qed.

Lemma xeps_pos : 0 < xeps.
Proof.
  rewrite xeps_eq. apply Rmult_lt_0_compat; [apply bpow_gt_0|].
  eapply Rlt_le_trans; [|exact HMbig]. apply bpow_gt_0.
Qed.

Lemma abs_between a b x : a <= x <= b -> Rabs a <= M -> Rabs b <= M -> Rabs x <= M.
Proof. intros H. unfold Rabs. repeat destruct Rcase_abs; lra. Qed.

Lemma inv64_next c : inv64 c -> inv64 (rnext rnd64 signbit f c).
Proof.
  intros (H1 & H2 & H3 & H4 & H5).
  pose proof (mid64_range _ _ H1 H2 H3) as Hm.
  assert (Hd : is_double (rmid rnd64 c)) by apply rnd64_double.
  assert (Habs : Rabs (rmid rnd64 c) <= M) by (eapply abs_between; eauto).
  unfold rnext, halve. fold (rmid rnd64 c) in Hm |- *.
  destruct (negb _); unfold inv64; simpl; tauto.
Qed.

Lemma double_between_dec a b :
  (exists m, is_double m /\ a < m < b) \/ (forall m, is_double m -> a < m < b -> False).
Proof.
  destruct (Classical_Prop.classic (exists m, is_double m /\ a < m < b)) as [H|H]; [left; auto|].
  right. intros m Hm Hr. apply H; eauto.
Qed.

Definition mu64 (c : bracket R V) : nat := Z.to_nat (Zfloor ((bb c - ba c) / eta)).

Lemma mu64_next c : inv64 c -> rfound rnd64 signbit f xeps c = false ->
  (mu64 (rnext rnd64 signbit f c) < mu64 c)%nat.
Proof.
  intros Hc Hf. pose proof (inv64_next c Hc) as Hn.
  destruct Hc as (H1 & H2 & H3 & H4 & H5), Hn as (N1 & N2 & N3 & N4 & N5).
  unfold rfound in Hf. apply Rltb_false in Hf.
  pose proof (mid64_range _ _ H1 H2 H3) as Hm.
  assert (Hd : is_double (rmid rnd64 c)) by apply rnd64_double.
  assert (Hlt : bb (rnext rnd64 signbit f c) - ba (rnext rnd64 signbit f c) < bb c - ba c).
  { destruct (double_between_dec (ba c) (bb c)) as [(m & Hm1 & Hm2)|Hno].
    - pose proof (mid64_strict _ _ m H1 H2 Hm1 Hm2) as Hs.
      unfold rnext, halve. fold (rmid rnd64 c) in Hs |- *.
      destruct (negb _); simpl; lra.
    - exfalso.
      (* the new bracket has width 0 or b-a, both below xeps *)
      assert (Hw : rnd64 (bb (rnext rnd64 signbit f c) - ba (rnext rnd64 signbit f c)) < xeps).
      2: lra.
      destruct (Req_dec (ba c) (bb c)) as [E|E].
      + replace (bb (rnext rnd64 signbit f c) - ba (rnext rnd64 signbit f c)) with 0.
        { rewrite rnd64_id by apply double_0. apply xeps_pos. }
        unfold rnext, halve. fold (rmid rnd64 c) in Hm |- *. destruct (negb _); simpl; lra.
      + destruct (gap64 (ba c) (bb c) M) as [G1 G2]; auto; try lra.
        rewrite <- xeps_eq in G2.
        assert (Hmm : rmid rnd64 c = ba c \/ rmid rnd64 c = bb c).
        { destruct (Req_dec (rmid rnd64 c) (ba c)); auto.
          destruct (Req_dec (rmid rnd64 c) (bb c)); auto.
          exfalso. apply (Hno (rmid rnd64 c)); auto. unfold rmid in *. lra. }
        assert (Hcase : bb (rnext rnd64 signbit f c) - ba (rnext rnd64 signbit f c) = 0 \/
                        bb (rnext rnd64 signbit f c) - ba (rnext rnd64 signbit f c) = bb c - ba c).
        { unfold rnext, halve. destruct (negb _); simpl; destruct Hmm as [-> | ->]; lra. }
        destruct Hcase as [-> | ->].
        * rewrite rnd64_id by apply double_0. apply xeps_pos.
        * rewrite rnd64_id by auto. auto. }
  unfold mu64.
  destruct (double_multiple _ H1) as [m1 E1], (double_multiple _ H2) as [m2 E2].
  destruct (double_multiple _ N1) as [n1 F1], (double_multiple _ N2) as [n2 F2].
  pose proof eta_pos as He.
  rewrite E1, E2, F1, F2 in *.
  replace ((IZR n2 * eta - IZR n1 * eta) / eta) with (IZR (n2 - n1)) by (rewrite minus_IZR; field; lra).
  replace ((IZR m2 * eta - IZR m1 * eta) / eta) with (IZR (m2 - m1)) by (rewrite minus_IZR; field; lra).
  rewrite !Zfloor_IZR.
  assert (L1 : IZR (n2 - n1) < IZR (m2 - m1)) by (rewrite !minus_IZR; nra).
  assert (L2 : 0 <= IZR (n2 - n1)) by (rewrite minus_IZR; nra).
  apply lt_IZR in L1. apply le_IZR in L2. lia.
Qed.

Lemma bisect64_ends k :
  k <> [] -> Forall inv64 k ->
  exists rs rs', ends_with (fun fuel => bisect_cont rnd64 signbit f xeps fuel k) rs /\
    Permutation rs rs' /\ Forall2 (fun c r => ba c <= r <= bb c) k rs'.
Proof.
  intros Hne Hk.
  apply bisect_cont_ends with (Inv := inv64) (mu := mu64); auto using inv64_next, mu64_next.
  - intros c (H1 & H2 & H3 & _) _. apply mid64_range; auto.
  - intros c r Hc Hr. pose proof (inv64_next c Hc) as Hn.
    destruct Hc as (H1 & H2 & H3 & _). pose proof (mid64_range _ _ H1 H2 H3) as Hm.
    unfold rnext, halve in Hr. fold (rmid rnd64 c) in Hm. destruct (negb _) in Hr; simpl in Hr; lra.
Qed.
End Dbl.

Lemma maxabs_double l : Forall is_double l -> is_double (maxabs l).
Proof.
  unfold maxabs. induction 1 as [|x l Hx Hl IH]; simpl; [apply double_0|].
  unfold Rmax. destruct Rle_dec; auto. apply generic_format_abs; auto.
Qed.

Lemma find_all_cont64_terminates {V} (signbit iszero : V -> bool) (f : R -> V) grid :
  StronglySorted Rlt grid -> Forall is_double grid -> bpow radix2 (-970) <= maxabs grid ->
  exists rs, ends_with (fun fuel => find_all_cont rnd64 signbit iszero fuel f grid) rs /\
    (forall x, In x grid -> iszero (f x) = true -> In x rs) /\
    (forall a b, adjacent grid a b -> sign_interval signbit iszero f a b ->
       exists r, In r rs /\ a <= r <= b).
Proof.
  intros Hg Hd HM.
  set (hits := filter (fun x => iszero (f x)) grid).
  remember (map (mk f) (filter (sc_pair signbit iszero f) (pairs grid))) as brs eqn:Hbrs.
  assert (Hinv : Forall (inv64 (maxabs grid)) brs).
  { subst brs. apply Forall_map, Forall_forall. intros [a b] Hin.
    apply filter_In in Hin as [H1 H2]. apply pairs_adjacent in H1.
    pose proof (adjacent_in _ _ _ H1) as [Ia Ib]. rewrite Forall_forall in Hd.
    unfold inv64; simpl. repeat split; auto using maxabs_ge.
    left. eapply adjacent_lt; eauto; intros; lra. }
  assert (Hbr : forall a b, adjacent grid a b -> sign_interval signbit iszero f a b -> In (mk f (a, b)) brs).
  { intros a b Ha Hs. subst brs. apply in_map_iff. exists (a, b); split; auto.
    apply filter_In. rewrite pairs_adjacent, sc_pair_spec. auto. }
  unfold find_all_cont.
  destruct brs as [|c brs'].
  - exists hits. split; [|split].
    + exists 0%nat. intros fuel _. rewrite find_all_unfold, <- Hbrs. reflexivity.
    + intros x Hx Hz. apply filter_In; auto.
    + intros a b Ha Hs. destruct (Hbr a b Ha Hs).
  - destruct (bisect64_ends signbit f (maxabs grid)) with (k := c :: brs')
      as (rs & rs' & (n & Hn) & P & F); auto using maxabs_double; try discriminate.
    exists (sort_by Rleb (hits ++ rs)). split; [|split].
    + exists n. intros fuel Hfuel.
      rewrite find_all_unfold, <- Hbrs. cbn zeta. rewrite Hn by auto. reflexivity.
    + intros x Hx Hz. eapply Permutation_in; [apply sort_by_perm|].
      apply in_or_app; left. apply filter_In; auto.
    + intros a b Ha Hs. destruct (Forall2_in_l _ _ _ _ F (Hbr a b Ha Hs)) as (r & Hr & Hrr).
      exists r; split; auto. eapply Permutation_in; [apply sort_by_perm|].
      apply in_or_app; right. eapply Permutation_in; [symmetry; exact P|auto].
Qed.

Lemma find_all_cont64_diverges {V} (signbit iszero : V -> bool) (f : R -> V) grid a b :
  StronglySorted Rlt grid -> Forall is_double grid -> maxabs grid < bpow radix2 (-1023) ->
  adjacent grid a b -> sign_interval signbit iszero f a b ->
  forall fuel, find_all_cont rnd64 signbit iszero fuel f grid = None.
Proof.
  intros Hg Hd HM Hab Hs fuel.
  assert (Hge0 : 0 <= maxabs grid).
  { pose proof (adjacent_in _ _ _ Hab) as [Ia _]. apply maxabs_ge in Ia.
    pose proof (Rabs_pos a). lra. }
  assert (Hx : rnd64 (eps64 * maxabs grid) = 0).
  { rewrite eps64_bpow. apply tiny_underflow.
    - apply Rmult_le_pos; auto. apply bpow_ge_0.
    - replace (-1075)%Z with (-52 + -1023)%Z by lia. rewrite bpow_plus.
      apply Rmult_lt_compat_l; auto. apply bpow_gt_0. }
  unfold find_all_cont. rewrite Hx, find_all_unfold.
  remember (map (mk f) (filter (sc_pair signbit iszero f) (pairs grid))) as brs eqn:Hbrs.
  assert (Hin : In (mk f (a, b)) brs).
  { subst brs. apply in_map_iff. exists (a, b); split; auto.
    apply filter_In. rewrite pairs_adjacent, sc_pair_spec. auto. }
  assert (Hinv : Forall (inv64 (maxabs grid)) brs).
  { subst brs. apply Forall_map, Forall_forall. intros [u v] Hin'.
    apply filter_In in Hin' as [H1 H2]. apply pairs_adjacent in H1.
    pose proof (adjacent_in _ _ _ H1) as [Iu Iv]. rewrite Forall_forall in Hd.
    unfold inv64; simpl. repeat split; auto using maxabs_ge.
    left. eapply adjacent_lt; eauto; intros; lra. }
  assert (Hne : forall (k : list (bracket R V)), Forall (inv64 (maxabs grid)) k ->
            bisect_cont rnd64 signbit f 0 fuel k = None).
  { clear - fuel. induction fuel as [|fuel IH]; intros k Hk; auto.
    rewrite bisect_cont_S.
    assert (Hf : existsb (rfound rnd64 signbit f 0) k = false).
    { apply not_true_is_false. intros H. apply existsb_exists in H as (c & Hc & Hf).
      rewrite Forall_forall in Hk.
      pose proof (inv64_next signbit f (maxabs grid) c (Hk c Hc)) as (N1 & N2 & N3 & _).
      unfold rfound in Hf. apply Rltb_true in Hf.
      pose proof (rnd64_ge 0 (bb (rnext rnd64 signbit f c) - ba (rnext rnd64 signbit f c)) double_0 ltac:(lra)).
      lra. }
    rewrite Hf. apply IH. apply Forall_map. eapply Forall_impl; [|exact Hk].
    intros c. apply inv64_next. }
  cbn zeta. destruct brs as [|c brs']; [destruct Hin|].
  rewrite Hne by auto. reflexivity.
Qed.
