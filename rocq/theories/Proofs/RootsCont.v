From Coq Require Import List ZArith Bool Reals Lia Lra Permutation Sorted Arith.
From Verif.Model Require Import Base Roots.
From Verif.Spec Require Import SRoots.
From Verif.Proofs Require Import BaseFacts RootsFacts.
Import ListNotations.
Open Scope R_scope.

(** * Generic termination/refinement of the vectorised continuous bisection *)
Section Gen.
Context {V : Type} (rnd : R -> R) (signbit : V -> bool) (f : R -> V) (xeps : R).

Definition rmid (c : bracket R V) : R := rnd (/ 2 * rnd (ba c + bb c)).
Definition rnext (c : bracket R V) : bracket R V := halve signbit f rmid c.
Definition rfound (c : bracket R V) : bool := Rltb (rnd (bb (rnext c) - ba (rnext c))) xeps.

Lemma bisect_cont_S fuel k :
  bisect_cont rnd signbit f xeps (S fuel) k =
  if existsb rfound k then
    if forallb rfound k then Some (map rmid (filter rfound k))
    else match bisect_cont rnd signbit f xeps fuel
                 (map rnext (filter (fun c => negb (rfound c)) k)) with
         | Some more => Some (map rmid (filter rfound k) ++ more)
         | None => None
         end
  else bisect_cont rnd signbit f xeps fuel (map rnext k).
Proof. reflexivity. Qed.

Lemma bisect_cont_mono fuel k r :
  bisect_cont rnd signbit f xeps fuel k = Some r ->
  bisect_cont rnd signbit f xeps (S fuel) k = Some r.
Proof.
  revert k r; induction fuel as [|fuel IH]; intros k r; [discriminate|].
  rewrite bisect_cont_S. rewrite (bisect_cont_S (S fuel)).
  destruct (existsb rfound k); auto.
  destruct (forallb rfound k); auto.
  destruct (bisect_cont rnd signbit f xeps fuel _) eqn:E; try discriminate.
  apply IH in E. rewrite E. auto.
Qed.

Variable Inv : bracket R V -> Prop.
Variable rel : bracket R V -> R -> Prop.
Variable mu : bracket R V -> nat.
Hypothesis Inv_next : forall c, Inv c -> Inv (rnext c).
Hypothesis rel_found : forall c, Inv c -> rfound c = true -> rel c (rmid c).
Hypothesis rel_next : forall c r, Inv c -> rel (rnext c) r -> rel c r.
Hypothesis mu_next : forall c, Inv c -> rfound c = false -> (mu (rnext c) < mu c)%nat.

Lemma existsb_false_forall' {A} (p : A -> bool) l :
  existsb p l = false -> Forall (fun c => p c = false) l.
Proof.
  induction l as [|x l IH]; simpl; auto. rewrite orb_false_iff. intros []; constructor; auto.
Qed.

Lemma bisect_cont_spec N : forall k,
  k <> [] -> Forall Inv k -> Forall (fun c => (mu c <= N)%nat) k ->
  exists rs rs', bisect_cont rnd signbit f xeps (S N) k = Some rs /\ Permutation rs rs' /\
                 Forall2 rel k rs'.
Proof.
  assert (Hback : forall k rs, Forall Inv k -> Forall2 rel (map rnext k) rs -> Forall2 rel k rs).
  { induction k as [|c k IH]; intros rs Hk F; inversion F; inversion Hk; subst; constructor; auto. }
  assert (Hfnd : forall k, Forall Inv k -> Forall2 rel (filter rfound k) (map rmid (filter rfound k))).
  { induction 1 as [|c k Hc Hk IH]; simpl; auto.
    destruct (rfound c) eqn:E; simpl; auto. }
  induction N as [|N IH]; intros k Hne Hk Hmu; rewrite bisect_cont_S.
  - assert (Hall : forallb rfound k = true).
    { apply forallb_forall. intros c Hc. destruct (rfound c) eqn:E; auto.
      rewrite Forall_forall in *. pose proof (mu_next c (Hk c Hc) E). specialize (Hmu c Hc). lia. }
    rewrite Hall. replace (existsb rfound k) with true.
    2: { destruct k as [|c k]; [congruence|]. simpl in *. destruct (rfound c); auto; discriminate. }
    do 2 eexists; split; [reflexivity|]. split; auto.
    pose proof (Hfnd k Hk) as F. rewrite (forallb_filter_all _ _ Hall) in F at 1. exact F.
  - destruct (existsb rfound k) eqn:Ee.
    + destruct (forallb rfound k) eqn:Ea.
      * do 2 eexists; split; [reflexivity|]. split; auto.
        pose proof (Hfnd k Hk) as F. rewrite (forallb_filter_all _ _ Ea) in F at 1. exact F.
      * set (k' := filter (fun c => negb (rfound c)) k).
        assert (Hk' : Forall Inv k' /\ Forall (fun c => rfound c = false /\ (mu c <= S N)%nat) k').
        { unfold k'. rewrite !Forall_forall in *. split; intros c Hc; apply filter_In in Hc as [H1 H2]; auto.
          split; auto. destruct (rfound c); auto; discriminate. }
        destruct Hk' as [Hk1 Hk2].
        destruct (IH (map rnext k')) as (rs & rs' & E & P & F).
        -- intros Hn. apply map_eq_nil in Hn. apply (forallb_filter_nil _ _ Ea Hn).
        -- apply Forall_map. eapply Forall_impl; [|exact Hk1]; auto.
        -- apply Forall_map. rewrite Forall_forall in *. intros c Hc.
           destruct (Hk2 c Hc) as [H1 H2]. pose proof (mu_next c (Hk1 c Hc) H1). lia.
        -- rewrite E. apply Hback in F; auto.
           destruct (merge_partition rel rfound k _ _ (Hfnd k Hk) F) as (m & Pm & Fm).
           eexists; exists m; split; [reflexivity|]. split; auto. rewrite P; auto.
    + apply existsb_false_forall' in Ee.
      destruct (IH (map rnext k)) as (rs & rs' & E & P & F).
      * destruct k; simpl; congruence.
      * apply Forall_map. eapply Forall_impl; [|exact Hk]; auto.
      * apply Forall_map. rewrite Forall_forall in *. intros c Hc.
        pose proof (mu_next c (Hk c Hc) (Ee c Hc)). specialize (Hmu c Hc). lia.
      * rewrite E. apply Hback in F; auto. eauto.
Qed.

Lemma bisect_cont_ends k :
  k <> [] -> Forall Inv k ->
  exists rs rs', ends_with (fun fuel => bisect_cont rnd signbit f xeps fuel k) rs /\
                 Permutation rs rs' /\ Forall2 rel k rs'.
Proof.
  intros Hne Hk.
  assert (HN : exists N, Forall (fun c => (mu c <= N)%nat) k).
  { exists (list_sum (map mu k)). clear. induction k as [|c k IH]; constructor; simpl; [lia|].
    eapply Forall_impl; [|exact IH]. simpl; lia. }
  destruct HN as [N HN].
  destruct (bisect_cont_spec N k Hne Hk HN) as (rs & rs' & E & P & F).
  exists rs, rs'; split; auto. exists (S N). intros fuel Hf.
  induction Hf; auto. apply bisect_cont_mono; auto.
Qed.
End Gen.

Lemma maxabs_ge l x : In x l -> Rabs x <= maxabs l.
Proof.
  unfold maxabs. induction l as [|y l IH]; simpl; [tauto|].
  intros [->|H].
  - apply Rmax_l.
  - eapply Rle_trans; [apply IH; auto|apply Rmax_r].
Qed.

Lemma eps64_pos : 0 < eps64.
Proof. unfold eps64. apply Rinv_0_lt_compat. apply pow_lt. lra. Qed.

(** * Exact arithmetic *)
Section Exact.
Context {V : Type} (signbit iszero : V -> bool) (f : R -> V) (xeps : R).
Hypothesis Hxeps : 0 < xeps.
Notation id := (fun x : R => x).

Definition wf_rbr (c : bracket R V) : Prop :=
  ba c < bb c /\ bfa c = f (ba c) /\ signbit (f (ba c)) <> signbit (f (bb c)).

(** what a reported root satisfies relative to its bracket *)
Definition rel_cont (c : bracket R V) (r : R) : Prop :=
  ba c < r < bb c /\
  exists a' b', ba c <= a' <= r /\ r <= b' <= bb c /\ b' - a' < xeps /\
                signbit (f a') <> signbit (f b').

Lemma rnext_exact c : wf_rbr c ->
  wf_rbr (rnext id signbit f c) /\
  bb (rnext id signbit f c) - ba (rnext id signbit f c) = (bb c - ba c) / 2 /\
  ba c <= ba (rnext id signbit f c) /\ bb (rnext id signbit f c) <= bb c /\
  ba (rnext id signbit f c) <= rmid id c <= bb (rnext id signbit f c) /\
  ba c < rmid id c < bb c.
Proof.
  intros (H1 & H2 & H3). unfold rnext, halve, rmid. rewrite H2.
  destruct (Bool.eqb _ _) eqn:E; simpl.
  - apply Bool.eqb_prop in E. repeat split; simpl; try lra. congruence.
  - apply Bool.eqb_false_iff in E. repeat split; simpl; try lra. auto.
Qed.

Lemma bisect_cont_exact k :
  k <> [] -> Forall wf_rbr k ->
  exists rs rs', ends_with (fun fuel => bisect_cont id signbit f xeps fuel k) rs /\
                 Permutation rs rs' /\ Forall2 rel_cont k rs'.
Proof.
  intros Hne Hk.
  apply bisect_cont_ends with (Inv := wf_rbr)
    (mu := fun c => Z.to_nat (up ((bb c - ba c) / xeps))); auto.
  - intros c Hc. apply rnext_exact; auto.
  - intros c Hc Hf. destruct (rnext_exact c Hc) as ((N1 & _ & N2) & E1 & E2 & E3 & E4 & E5).
    split; auto.
    exists (ba (rnext id signbit f c)), (bb (rnext id signbit f c)).
    unfold rfound in Hf. apply Rltb_true in Hf. repeat split; auto; lra.
  - intros c r Hc (H1 & a' & b' & H2 & H3 & H4 & H5).
    destruct (rnext_exact c Hc) as ((N1 & _ & N2) & E1 & E2 & E3 & E4 & E5).
    split; [lra|]. exists a', b'. repeat split; auto; lra.
  - intros c Hc Hf. destruct (rnext_exact c Hc) as ((N1 & _ & N2) & E1 & E2 & E3 & E4 & E5).
    unfold rfound in Hf. apply Rltb_false in Hf.
    set (w := bb c - ba c) in *. rewrite E1 in *.
    assert (Hq : 1 <= w / 2 / xeps).
    { apply Rmult_le_reg_r with xeps; auto. unfold Rdiv at 1. rewrite Rmult_assoc, Rinv_l by lra. lra. }
    assert (Hw : w / xeps = 2 * (w / 2 / xeps)) by (field; lra).
    destruct (archimed (w / 2 / xeps)) as [A1 A2], (archimed (w / xeps)) as [B1 B2].
    assert (L : IZR (up (w / 2 / xeps)) < IZR (up (w / xeps))) by lra.
    apply lt_IZR in L.
    assert (P : 0 < IZR (up (w / 2 / xeps))) by lra.
    apply lt_IZR in P. lia.
Qed.
End Exact.

Section ExactFind.
Context {V : Type} (signbit iszero : V -> bool) (f : R -> V).
Notation id := (fun x : R => x).

Lemma find_all_cont_ok grid :
  StronglySorted Rlt grid ->
  exists rs,
    ends_with (fun fuel => find_all_cont id signbit iszero fuel f grid) rs /\
    StronglySorted Rlt rs /\
    (forall x, In x grid -> iszero (f x) = true -> In x rs) /\
    (forall a b, adjacent grid a b -> sign_interval signbit iszero f a b ->
       exists r, In r rs /\ a < r < b /\ (forall r', In r' rs -> a < r' < b -> r' = r)) /\
    (forall r, In r rs ->
       (In r grid /\ iszero (f r) = true) \/
       (exists a b, adjacent grid a b /\ sign_interval signbit iszero f a b /\ a < r < b /\
          exists a' b', a <= a' <= r /\ r <= b' <= b /\ b' - a' < eps64 * maxabs grid /\
                        signbit (f a') <> signbit (f b'))).
Proof.
  intros Hg.
  set (hits := filter (fun x => iszero (f x)) grid).
  set (xeps := eps64 * maxabs grid).
  remember (map (mk f) (filter (sc_pair signbit iszero f) (pairs grid))) as brs eqn:Hbrs.
  assert (Hwf : Forall (wf_rbr signbit f) brs).
  { subst brs. apply Forall_map, Forall_forall. intros [a b] Hin.
    apply filter_In in Hin as [H1 H2]. apply pairs_adjacent in H1.
    apply sc_pair_spec in H2 as (_ & _ & H2).
    split; [|split; auto]. simpl. eapply adjacent_lt; eauto; intros; lra. }
  assert (Hpos : brs <> [] -> 0 < xeps).
  { intros Hne. unfold xeps. apply Rmult_lt_0_compat; [apply eps64_pos|].
    assert (Hp : exists a b, adjacent grid a b).
    { subst brs. destruct (filter _ (pairs grid)) as [|[a b] ps] eqn:E; [simpl in Hne; congruence|].
      exists a, b. apply pairs_adjacent.
      assert (Hin : In (a, b) ((a, b) :: ps)) by (left; auto). rewrite <- E in Hin.
      apply filter_In in Hin; tauto. }
    destruct Hp as (a & b & Hab). pose proof (adjacent_in _ _ _ Hab) as [Ia Ib].
    assert (a < b) by (eapply adjacent_lt; eauto; intros; lra).
    apply maxabs_ge in Ia, Ib. unfold Rabs in *. repeat destruct Rcase_abs; lra. }
  assert (Hcase : exists xb xb',
     ends_with (fun fuel => find_all_cont id signbit iszero fuel f grid) (sort_by Rleb (hits ++ xb)) /\
     Permutation xb xb' /\ Forall2 (rel_cont signbit f xeps) brs xb').
  { unfold find_all_cont. fold xeps.
    destruct brs as [|c brs'].
    - exists [], []. split; [|split; auto]. exists 0%nat. intros fuel _.
      rewrite find_all_unfold, <- Hbrs. cbn zeta. rewrite app_nil_r.
      fold hits. f_equal. symmetry. apply rsort_of_sorted.
      apply StronglySorted_filter. eapply StronglySorted_impl; [|exact Hg]. intros; lra.
    - destruct (bisect_cont_exact signbit f xeps) with (k := c :: brs')
        as (rs & rs' & (n & Hn) & P & F); auto; try discriminate.
      { apply Hpos; discriminate. }
      exists rs, rs'. split; [|split; auto]. exists n. intros fuel Hfuel.
      rewrite find_all_unfold, <- Hbrs. cbn zeta. rewrite Hn by auto. reflexivity. }
  destruct Hcase as (xb & xb' & Hends & P & F).
  exists (sort_by Rleb (hits ++ xb)). split; auto.
  destruct (find_all_correct (V := V) Rlt Rleb) with (signbit := signbit) (iszero := iszero) (f := f)
    (rel := rel_cont signbit f xeps) (grid := grid) (brs := brs) (hits := hits) (xb := xb) (xb' := xb')
    (rs := sort_by Rleb (hits ++ xb)) as (R1 & _ & R2 & R3 & R4); auto; try (intros; lra).
  { intros x y. rewrite Rleb_true. lra. }
  { intros c r [H _]. lra. }
  split; auto. split; auto. split.
  - intros a b Ha Hs. destruct (R3 a b Ha Hs) as (r & (Hin & Hr1 & Hr2) & Hu).
    exists r; split; auto. split; auto. intros r' Hr' Hb. apply Hu; auto; lra.
  - intros r Hr. destruct (R4 r Hr) as [|(a & b & H1 & H2 & H3 & H4)]; auto.
    right; exists a, b; auto.
Qed.
End ExactFind.

(** With a continuous real function, every reported point is close to a root. *)
Lemma sign_flip_root (f : R -> R) a b :
  a <= b -> (forall x, a <= x <= b -> continuity_pt f x) ->
  rsignbit (f a) <> rsignbit (f b) -> exists z, a <= z <= b /\ f z = 0.
Proof.
  intros Hab Hc Hs. unfold rsignbit in Hs.
  destruct (Rltb (f a) 0) eqn:Ea, (Rltb (f b) 0) eqn:Eb; try congruence.
  - apply Rltb_true in Ea. apply Rltb_false in Eb.
    destruct (Req_dec (f b) 0) as [E|E]; [exists b; split; auto; lra|].
    assert (Hlt : a < b) by (destruct Hab as [|<-]; lra).
    destruct (Ranalysis5.IVT_interv f a b Hc Hlt Ea ltac:(lra)) as (z & Hz & Hfz). eauto.
  - apply Rltb_false in Ea. apply Rltb_true in Eb.
    destruct (Req_dec (f a) 0) as [E|E]; [exists a; split; auto; lra|].
    assert (Hlt : a < b) by (destruct Hab as [|<-]; lra).
    destruct (Ranalysis5.IVT_interv (fun x => - f x) a b) as (z & Hz & Hfz); auto; try lra.
    + intros x Hx. apply continuity_pt_opp. auto.
    + exists z; split; auto. lra.
Qed.

Lemma find_all_cont_real (f : R -> R) grid :
  StronglySorted Rlt grid ->
  exists rs,
    ends_with (fun fuel => find_all_cont (fun x => x) rsignbit (fun v => Reqb v 0) fuel f grid) rs /\
    StronglySorted Rlt rs /\
    (forall x, In x grid -> f x = 0 -> In x rs) /\
    (forall a b, adjacent grid a b -> f a * f b < 0 ->
       exists r, In r rs /\ a < r < b /\ (forall r', In r' rs -> a < r' < b -> r' = r)) /\
    (forall r, In r rs ->
       (In r grid /\ f r = 0) \/
       (exists a b, adjacent grid a b /\ f a * f b < 0 /\ a < r < b /\
          ((forall x, a <= x <= b -> continuity_pt f x) ->
           exists z, a <= z <= b /\ f z = 0 /\ Rabs (z - r) < eps64 * maxabs grid))).
Proof.
  intros Hg.
  assert (Hsi : forall a b, sign_interval rsignbit (fun v => Reqb v 0) f a b <-> f a * f b < 0).
  { intros a b. unfold sign_interval, rsignbit. rewrite !Reqb_false. split.
    - intros (H1 & H2 & H3).
      destruct (Rltb (f a) 0) eqn:Ea, (Rltb (f b) 0) eqn:Eb; try congruence;
      rewrite ?Rltb_true, ?Rltb_false in *; nra.
    - intros H. split; [nra|]. split; [nra|]. intros E.
      destruct (Rltb (f a) 0) eqn:Ea, (Rltb (f b) 0) eqn:Eb; try congruence;
      rewrite ?Rltb_true, ?Rltb_false in *; nra. }
  destruct (find_all_cont_ok rsignbit (fun v => Reqb v 0) f grid Hg) as (rs & R0 & R1 & R2 & R3 & R4).
  exists rs. split; auto. split; auto. split; [|split].
  - intros x Hx Hz. apply R2; auto. apply Reqb_true; auto.
  - intros a b Hab Hs. apply R3; auto. apply Hsi; auto.
  - intros r Hr. destruct (R4 r Hr) as [[H1 H2]|(a & b & H1 & H2 & H3 & a' & b' & H4 & H5 & H6 & H7)].
    + left; split; auto. apply Reqb_true in H2; auto.
    + right. exists a, b. split; auto. split; [apply Hsi; auto|]. split; auto.
      intros Hc. destruct (sign_flip_root f a' b') as (z & Hz1 & Hz2); auto; try lra.
      { intros x Hx. apply Hc; lra. }
      exists z. split; [lra|]. split; auto. unfold Rabs; destruct Rcase_abs; lra.
Qed.
