From Coq Require Import List ZArith Bool Lia Permutation Sorted Arith.
From Verif.Model Require Import Base Roots.
From Verif.Spec Require Import SRoots.
From Verif.Proofs Require Import BaseFacts RootsFacts.
Import ListNotations.

Section Discr.
Context {V : Type} (signbit iszero : V -> bool) (f : Z -> V).

Definition wf_br (c : bracket Z V) : Prop :=
  (ba c < bb c)%Z /\ bfa c = f (ba c) /\ signbit (f (ba c)) <> signbit (f (bb c)).

Definition rel_discr (c : bracket Z V) (r : Z) : Prop :=
  (ba c <= r < bb c)%Z /\ flips signbit f r.

Definition width (c : bracket Z V) : nat := Z.to_nat (bb c - ba c).
Definition total (k : list (bracket Z V)) : nat := list_sum (map width k).

Definition zmid (c : bracket Z V) : Z := ((ba c + bb c) / 2)%Z.
Definition zfound (c : bracket Z V) : bool := (ba c =? zmid c)%Z.

Lemma zmid_range c : (ba c < bb c)%Z -> (ba c <= zmid c < bb c)%Z.
Proof. unfold zmid; intros. split; [apply Z.div_le_lower_bound|apply Z.div_lt_upper_bound]; lia. Qed.

Lemma zfound_width c : (ba c < bb c)%Z -> zfound c = true -> bb c = (ba c + 1)%Z.
Proof.
  unfold zfound, zmid. rewrite Z.eqb_eq. intros H E.
  pose proof (Z.div_mod (ba c + bb c) 2 ltac:(lia)). pose proof (Z.mod_pos_bound (ba c + bb c) 2 ltac:(lia)).
  lia.
Qed.

Lemma halve_wf c : wf_br c -> zfound c = false ->
  wf_br (halve signbit f zmid c) /\ width (halve signbit f zmid c) < width c /\
  (forall r, rel_discr (halve signbit f zmid c) r -> rel_discr c r).
Proof.
  intros (H1 & H2 & H3) Hf. pose proof (zmid_range c H1) as Hm.
  unfold zfound in Hf. apply Z.eqb_neq in Hf.
  unfold halve. rewrite H2.
  destruct (Bool.eqb (signbit (f (ba c))) (signbit (f (zmid c)))) eqn:E; simpl.
  - apply Bool.eqb_prop in E. split; [|split].
    + repeat split; simpl; try lia. congruence.
    + unfold width; simpl. lia.
    + intros r [Hr Hs]; simpl in *. split; auto. lia.
  - apply Bool.eqb_false_iff in E. split; [|split].
    + repeat split; simpl; auto. lia.
    + unfold width; simpl. lia.
    + intros r [Hr Hs]; simpl in *. split; auto. lia.
Qed.

Lemma found_rel c : wf_br c -> zfound c = true -> rel_discr c (zmid c).
Proof.
  intros (H1 & H2 & H3) Hf. pose proof (zfound_width c H1 Hf) as Hw.
  unfold zfound in Hf. apply Z.eqb_eq in Hf.
  split; [lia|]. unfold flips. rewrite <- Hf, <- Hw; auto.
Qed.

Lemma total_filter_lt p k :
  Forall wf_br k -> existsb p k = true -> total (filter (fun c => negb (p c)) k) < total k.
Proof.
  unfold total. induction 1 as [|c k Hc Hk IH]; simpl; [discriminate|].
  assert (Hle : forall q, list_sum (map width (filter q k)) <= list_sum (map width k)).
  { clear. intros q; induction k as [|c k IH]; simpl; auto. destruct (q c); simpl; lia. }
  destruct (p c); simpl.
  - intros _. destruct Hc as (Hc & _). specialize (Hle (fun c => negb (p c))).
    unfold width at 2. lia.
  - intros H. specialize (IH H). lia.
Qed.

Lemma existsb_false_forall {A} (p : A -> bool) l : existsb p l = false -> Forall (fun c => p c = false) l.
Proof.
  induction l as [|x l IH]; simpl; auto. rewrite orb_false_iff. intros []; constructor; auto.
Qed.

Lemma bisect_discr_S fuel k :
  bisect_discr signbit f (S fuel) k =
  if existsb zfound k then
    if forallb zfound k then Some (map zmid (filter zfound k))
    else match bisect_discr signbit f fuel (filter (fun c => negb (zfound c)) k) with
         | Some more => Some (map zmid (filter zfound k) ++ more)
         | None => None
         end
  else bisect_discr signbit f fuel (map (halve signbit f zmid) k).
Proof. reflexivity. Qed.

Lemma bisect_discr_mono fuel k r :
  bisect_discr signbit f fuel k = Some r -> bisect_discr signbit f (S fuel) k = Some r.
Proof.
  revert k r; induction fuel as [|fuel IH]; intros k r; [discriminate|].
  rewrite bisect_discr_S. rewrite (bisect_discr_S (S fuel)).
  destruct (existsb zfound k); auto.
  destruct (forallb zfound k); auto.
  destruct (bisect_discr signbit f fuel _) eqn:E; try discriminate.
  apply IH in E. rewrite E. auto.
Qed.

Lemma bisect_discr_spec N : forall k fuel,
  k <> [] -> Forall wf_br k -> total k <= N -> N <= fuel -> 
  exists rs rs', bisect_discr signbit f (S fuel) k = Some rs /\ Permutation rs rs' /\ Forall2 rel_discr k rs'.
Proof.
  induction N as [N IH] using lt_wf_ind. intros k fuel Hne Hwf Ht Hf.
  rewrite bisect_discr_S.
  destruct (existsb zfound k) eqn:Ee.
  - assert (Hfound : Forall2 rel_discr (filter zfound k) (map zmid (filter zfound k))).
    { clear - Hwf. induction Hwf as [|c k Hc Hk IH]; simpl; auto.
      destruct (zfound c) eqn:E; simpl; auto. constructor; auto. apply found_rel; auto. }
    destruct (forallb zfound k) eqn:Ea.
    + exists (map zmid (filter zfound k)), (map zmid (filter zfound k)).
      split; auto. split; auto. rewrite (forallb_filter_all _ _ Ea) in Hfound at 1. exact Hfound.
    + pose proof (total_filter_lt zfound k Hwf Ee) as Hlt.
      destruct fuel as [|fuel]; [lia|].
      destruct (IH (N - 1) ltac:(lia) (filter (fun c => negb (zfound c)) k) fuel) as (rs & rs' & E & P & F).
      * apply forallb_filter_nil; auto.
      * apply Forall_forall. intros c Hc. apply filter_In in Hc.
        rewrite Forall_forall in Hwf. apply Hwf; tauto.
      * lia.
      * lia.
      * rewrite E.
        destruct (merge_partition rel_discr zfound k _ _ Hfound F) as (m & Pm & Fm).
        eexists; exists m; split; [reflexivity|]. split; auto.
        rewrite P; auto.
  - apply existsb_false_forall in Ee.
    destruct fuel as [|fuel].
    { destruct k as [|c k]; [congruence|]. exfalso.
      inversion Hwf as [|? ? [Hc _] _]; subst. unfold total in Ht. simpl in Ht.
      unfold width at 1 in Ht. lia. }
    assert (Hlt : total (map (halve signbit f zmid) k) < total k).
    { clear - Hne Hwf Ee. unfold total. destruct k as [|c k]; [congruence|]. clear Hne.
      revert c Hwf Ee. induction k as [|c' k IH]; intros c Hwf Ee; inversion Hwf; inversion Ee; subst; simpl in *.
      - destruct (halve_wf c) as (_ & ? & _); auto. lia.
      - destruct (halve_wf c) as (_ & ? & _); auto. specialize (IH c' H2 H6). lia. }
    destruct (IH (N - 1) ltac:(lia) (map (halve signbit f zmid) k) fuel) as (rs & rs' & E & P & F).
    + destruct k; simpl; congruence.
    + apply Forall_map. rewrite Forall_forall in *. intros c Hc. apply halve_wf; auto.
    + lia.
    + lia.
    + rewrite E. exists rs, rs'; split; auto. split; auto.
      clear - F Hwf Ee. revert rs' F. induction k as [|c k IH]; intros rs' F; inversion F; subst; constructor.
      * inversion Hwf; inversion Ee; subst. eapply halve_wf; eauto.
      * inversion Hwf; inversion Ee; subst. auto.
Qed.

Lemma bisect_discr_ends k :
  k <> [] -> Forall wf_br k ->
  exists rs rs', ends_with (fun fuel => bisect_discr signbit f fuel k) rs /\
                 Permutation rs rs' /\ Forall2 rel_discr k rs'.
Proof.
  intros Hne Hwf.
  destruct (bisect_discr_spec (total k) k (total k) Hne Hwf (le_n _) (le_n _)) as (rs & rs' & E & P & F).
  exists rs, rs'; split; auto. exists (S (total k)). intros fuel Hfuel.
  induction Hfuel; auto. apply bisect_discr_mono; auto.
Qed.

Lemma find_all_discr_ok grid :
  StronglySorted Z.lt grid ->
  exists rs,
    ends_with (fun fuel => find_all_discr signbit iszero fuel f grid) rs /\
    StronglySorted Z.lt rs /\
    (forall x, In x grid -> iszero (f x) = true -> In x rs) /\
    (forall a b, adjacent grid a b -> sign_interval signbit iszero f a b ->
       exists r, (In r rs /\ (a <= r < b)%Z /\ flips signbit f r) /\
                 (forall r', In r' rs -> (a <= r' < b)%Z -> r' = r)) /\
    (forall r, In r rs ->
       (In r grid /\ iszero (f r) = true) \/
       (exists a b, adjacent grid a b /\ sign_interval signbit iszero f a b /\
                    (a <= r < b)%Z /\ flips signbit f r)).
Proof.
  intros Hg.
  set (hits := filter (fun x => iszero (f x)) grid).
  set (brs := map (mk f) (filter (sc_pair signbit iszero f) (pairs grid))).
  assert (Hwf : Forall wf_br brs).
  { apply Forall_map, Forall_forall. intros [a b] Hin.
    apply filter_In in Hin as [H1 H2]. apply pairs_adjacent in H1.
    apply sc_pair_spec in H2 as (_ & _ & H2).
    split; [|split; auto]. simpl. eapply adjacent_lt; eauto; intros; lia. }
  assert (Hcase : exists xb xb',
     ends_with (fun fuel => find_all_discr signbit iszero fuel f grid) (sort_by Z.leb (hits ++ xb)) /\
     Permutation xb xb' /\ Forall2 rel_discr brs xb').
  { unfold find_all_discr.
    destruct brs as [|c brs'] eqn:Eb.
    - exists [], []. split; [|split; auto]. exists 0. intros fuel _.
      rewrite find_all_unfold. fold brs. rewrite Eb. cbn zeta. rewrite app_nil_r.
      fold hits. f_equal. symmetry. apply zsort_of_sorted.
      apply StronglySorted_filter. eapply StronglySorted_impl; [|exact Hg]. intros; lia.
    - destruct (bisect_discr_ends (c :: brs')) as (rs & rs' & (n & Hn) & P & F); auto; [discriminate|].
      exists rs, rs'. split; [|split; auto]. exists n. intros fuel Hfuel.
      rewrite find_all_unfold. fold brs. rewrite Eb. cbn zeta. rewrite Hn by auto. reflexivity. }
  destruct Hcase as (xb & xb' & Hends & P & F).
  exists (sort_by Z.leb (hits ++ xb)). split; auto.
  destruct (find_all_correct (V := V) Z.lt Z.leb) with (signbit := signbit) (iszero := iszero) (f := f)
    (rel := rel_discr) (grid := grid) (brs := brs) (hits := hits) (xb := xb) (xb' := xb')
    (rs := sort_by Z.leb (hits ++ xb)) as (R1 & _ & R2 & R3 & R4); auto; try (intros; lia).
  { intros c r [H _]. lia. }
  split; auto. split; auto. split.
  - intros a b Ha Hs. destruct (R3 a b Ha Hs) as (r & (Hin & Hr1 & Hr2) & Hu).
    exists r; split; auto. intros r' Hr' Hb. apply Hu; auto; lia.
  - intros r Hr. destruct (R4 r Hr) as [|(a & b & H1 & H2 & H3 & H4)]; auto.
    right; exists a, b; auto.
Qed.
End Discr.
